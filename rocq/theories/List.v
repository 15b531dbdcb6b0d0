(** * Model of tommylist.h (double linked list).

    A [tommy_list] is one word in memory holding the head pointer; a function
    taking [tommy_list*] takes the address [l] of that word. *)
From Verif Require Export Mem.
Global Open Scope Z_scope.

(** tommylist.h:114-117 tommy_list_init *)
Definition list_init (l : Z) : M unit := store l null.

(** tommylist.h:123-126 tommy_list_head *)
Definition list_head (l : Z) : M Z := load l.

(** tommylist.h:132-140 tommy_list_tail *)
Definition list_tail (l : Z) : M Z :=
  head ← list_head l;
  if decide (head = null) then mret null
  else load (f_prev head).

(** tommylist.h:147-156 tommy_list_insert_first *)
Definition list_insert_first (l node : Z) : M unit :=
  store (f_prev node) node;;
  store (f_next node) null;;
  store l node.

(** tommylist.h:164-176 tommy_list_insert_head_not_empty *)
Definition list_insert_head_not_empty (l node : Z) : M unit :=
  head ← list_head l;
  head_prev ← load (f_prev head);
  store (f_prev node) head_prev;;
  store (f_prev head) node;;
  store (f_next node) head;;
  store l node.

(** tommylist.h:184-193 tommy_list_insert_tail_not_empty *)
Definition list_insert_tail_not_empty (head node : Z) : M unit :=
  head_prev ← load (f_prev head);
  store (f_prev node) head_prev;;
  store (f_prev head) node;;
  store (f_next node) null;;
  node_prev ← load (f_prev node);
  store (f_next node_prev) node.

(** tommylist.h:200-210 tommy_list_insert_head *)
Definition list_insert_head (l node data : Z) : M unit :=
  head ← list_head l;
  (if decide (head = null)
   then list_insert_first l node
   else list_insert_head_not_empty l node);;
  store (f_data node) data.

(** tommylist.h:217-227 tommy_list_insert_tail *)
Definition list_insert_tail (l node data : Z) : M unit :=
  head ← list_head l;
  (if decide (head = null)
   then list_insert_first l node
   else list_insert_tail_not_empty head node);;
  store (f_data node) data.

(** tommylist.h:237-254 tommy_list_remove_existing *)
Definition list_remove_existing (l node : Z) : M Z :=
  head ← list_head l;
  (* remove from the "circular" prev list *)
  node_next ← load (f_next node);
  (if decide (node_next = null) then
     node_prev ← load (f_prev node);
     store (f_prev head) node_prev
   else
     node_prev ← load (f_prev node);
     store (f_prev node_next) node_prev);;
  (* remove from the "0 terminated" next list *)
  (if decide (head = node) then
     node_next ← load (f_next node);
     store l node_next
   else
     node_prev ← load (f_prev node);
     node_next ← load (f_next node);
     store (f_next node_prev) node_next);;
  load (f_data node).

(** tommylist.h:263-290 tommy_list_concat *)
Definition list_concat (first second : Z) : M unit :=
  second_head ← list_head second;
  if decide (second_head = null) then mret tt else
  first_head ← list_head first;
  if decide (first_head = null) then
    s ← load second;
    store first s
  else
    first_tail ← load (f_prev first_head);
    second_head_prev ← load (f_prev second_head);
    store (f_prev first_head) second_head_prev;;
    store (f_prev second_head) first_tail;;
    store (f_next first_tail) second_head.

(** tommylist.h:305-308 tommy_list_empty *)
Definition list_empty (l : Z) : M bool :=
  head ← list_head l;
  mret (bool_decide (head = null)).

(** tommylist.h:314-325 tommy_list_count: the while loop *)
Fixpoint list_count_loop (fuel : nat) (count i : Z) : M Z :=
  if decide (i = null) then mret count else
  match fuel with
  | O => fuel_out
  | S fuel =>
      i' ← load (f_next i);
      list_count_loop fuel (wrap (count + 1)) i'
  end.
Definition list_count (fuel : nat) (l : Z) : M Z :=
  i ← list_head l;
  list_count_loop fuel 0 i.

(** tommylist.h:355-364 tommy_list_foreach: the while loop.  The next pointer
    is read before the callback is called. *)
Fixpoint list_foreach_loop (fuel : nat) (node : Z) (func : Z -> M unit) : M unit :=
  if decide (node = null) then mret tt else
  match fuel with
  | O => fuel_out
  | S fuel =>
      data ← load (f_data node);
      node' ← load (f_next node);
      func data;;
      list_foreach_loop fuel node' func
  end.
Definition list_foreach (fuel : nat) (l : Z) (func : Z -> M unit) : M unit :=
  node ← list_head l;
  list_foreach_loop fuel node func.

(** tommylist.h:369-378 tommy_list_foreach_arg: same loop, [func(arg, data)] *)
Definition list_foreach_arg (fuel : nat) (l : Z) (func : Z -> Z -> M unit) (arg : Z) : M unit :=
  node ← list_head l;
  list_foreach_loop fuel node (func arg).

(** The iteration a client performs, documented at tommylist.h:76-85: start
    from a head node and follow [next] until 0, collecting the nodes and
    their data. *)
Fixpoint list_walk (fuel : nat) (i : Z) : M (list (Z * Z)) :=
  if decide (i = null) then mret [] else
  match fuel with
  | O => fuel_out
  | S fuel =>
      data ← load (f_data i);
      i' ← load (f_next i);
      rest ← list_walk fuel i';
      mret ((i, data) :: rest)
  end.
