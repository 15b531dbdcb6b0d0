(** * Property C70: with enough memory every history completes. *)
From Verif Require Import ExamplesRoomTrie.
Global Open Scope Z_scope.

(** A run may stop only because malloc fails.  Here malloc has room: it hands out
    the addresses [base], [base + stride] and so on, above all that is in use
    ([room]), and [stride] is at least the largest request (C69).  If the address
    space holds as many blocks as the operations cost, the run does not stop.
    Init, insert and remove of a hashtable cost one block. *)
Theorem C70_hashtable_completes :
  table_completes hashtable_table (fun size _ => Z.max 128 (16 * size)).
Proof. exact hashtable_completes. Qed.
Print Assumptions C70_hashtable_completes.
Theorem C70_hashdyn_completes :
  table_completes hashdyn_table (fun _ objects => Z.max 128 (32 * objects)).
Proof. exact hashdyn_completes. Qed.
Print Assumptions C70_hashdyn_completes.
Theorem C70_hashlin_completes :
  table_completes hashlin_table (fun _ objects => Z.max 512 (16 * objects)).
Proof. exact hashlin_completes. Qed.
Print Assumptions C70_hashlin_completes.

(** Init of an array costs one block, grow to [n] elements costs the 64 segments
    and the blocks of 4096 elements, insert costs 64 segments and one block. *)
Theorem C70_array_completes :
  array_completes array_a (fun size _ => Z.max 512 (8 * size)) (fun _ => 0).
Proof. exact array_completes_ok. Qed.
Print Assumptions C70_array_completes.
Theorem C70_arrayof_completes :
  array_completes arrayof_a (fun size bytes => Z.max (64 * bytes) (bytes * size)) (fun _ => 0).
Proof. exact arrayof_completes_ok. Qed.
Print Assumptions C70_arrayof_completes.
Theorem C70_arrayblk_completes :
  array_completes arrayblk_a (fun size _ => Z.max 32768 (8 * ((size + 4095) / 4096)))
    (fun n => (Z.max 0 n + 4095) / 4096).
Proof. exact arrayblk_completes_ok. Qed.
Print Assumptions C70_arrayblk_completes.
Theorem C70_arrayblkof_completes :
  array_completes arrayblkof_a (fun size bytes => Z.max (Z.max 512 (4096 * bytes)) (8 * ((size + 4095) / 4096)))
    (fun n => (Z.max 0 n + 4095) / 4096).
Proof. exact arrayblkof_completes_ok. Qed.
Print Assumptions C70_arrayblkof_completes.

(** An allocation costs at most one segment, an insertion into a trie at most
    eleven. *)
Theorem C70_allocator_completes : allocator_completes.
Proof. exact allocator_completes_ok. Qed.
Print Assumptions C70_allocator_completes.
Theorem C70_trie_completes : trie_completes.
Proof. exact trie_completes_ok. Qed.
Print Assumptions C70_trie_completes.

(** The premises can be met: 65 objects, whose insertion makes the tables grow. *)
Example C70_table_example :
  table_start big_om ∅ big_t ∅ big_m /\ room 1048576 65536 big_m /\ size big_om = 65%nat /\
  allowed (troom 0 big_om ∅) tpost (tstate0 big_om ∅) grow_client /\ costs tcost 66 grow_client /\
  1048576 + 65536 * 66 < 2 ^ 64.
Proof. exact (conj big_start (conj big_room (conj big_size (conj (proj1 big_room_client) (conj (proj2 big_room_client) eq_refl))))). Qed.
Example C70_array_example :
  heap_live exa_m exa_live /\ room 65536 65536 exa_m /\
  allowed (arequest array_a 8000 8) (apost array_a) (astate0 exa_live) (prog_of_list [AInit 8; AGrow 8000]) /\
  costs (acost (fun _ => 0)) 65 (prog_of_list [AInit 8; AGrow 8000] : prog aop aout).
Proof. exact (conj exa_heap (conj exa_room exa_room_client)). Qed.
Example C70_trie_example :
  trie_start ex_om ex_tb ex_live ex_trie_m /\ room 8192 16384 ex_trie_m /\
  allowed xpre xpost (xstate0 ex_om ex_live) ex_trie_client /\
  every (xrequest 16384) ex_trie_client /\ costs xcost 45 ex_trie_client.
Proof. exact (conj ex_trie_start (conj ex_trie_room (conj ex_trie_allowed ex_trie_room_client))). Qed.
