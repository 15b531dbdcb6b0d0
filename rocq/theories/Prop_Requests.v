(** * Property C69: how much memory the containers ask from malloc. *)
From Verif Require Import ExamplesRequests.
Global Open Scope Z_scope.

(** The bounds are on each single request that the initial memory may refuse; as
    it may refuse any of them, they are on all the requests.  [size] is the
    largest size given to init, and [objects] the number of objects of the
    client. *)
Theorem C69_hashtable_requests :
  table_requests hashtable_table (fun size _ => Z.max 128 (16 * size)).
Proof. exact hashtable_requests. Qed.
Print Assumptions C69_hashtable_requests.
Theorem C69_hashdyn_requests :
  table_requests hashdyn_table (fun _ objects => Z.max 128 (32 * objects)).
Proof. exact hashdyn_requests. Qed.
Print Assumptions C69_hashdyn_requests.
Theorem C69_hashlin_requests :
  table_requests hashlin_table (fun _ objects => Z.max 512 (16 * objects)).
Proof. exact hashlin_requests. Qed.
Print Assumptions C69_hashlin_requests.

(** Of the arrays, [size] is the largest size they grow to and [bytes] the size
    of their elements. *)
Theorem C69_array_requests : array_requests array_a (fun size _ => Z.max 512 (8 * size)).
Proof. exact array_requests_ok. Qed.
Print Assumptions C69_array_requests.
Theorem C69_arrayof_requests :
  array_requests arrayof_a (fun size bytes => Z.max (64 * bytes) (bytes * size)).
Proof. exact arrayof_requests_ok. Qed.
Print Assumptions C69_arrayof_requests.
Theorem C69_arrayblk_requests :
  array_requests arrayblk_a (fun size _ => Z.max 32768 (8 * ((size + 4095) / 4096))).
Proof. exact arrayblk_requests_ok. Qed.
Print Assumptions C69_arrayblk_requests.
Theorem C69_arrayblkof_requests :
  array_requests arrayblkof_a (fun size bytes => Z.max (Z.max 512 (4096 * bytes)) (8 * ((size + 4095) / 4096))).
Proof. exact arrayblkof_requests_ok. Qed.
Print Assumptions C69_arrayblkof_requests.

(** The allocator, and the trie through it, ask for one segment at a time. *)
Theorem C69_allocator_requests : forall b c m n,
  every (prequest b) c -> run pstep None c m = Env n -> n <= b.
Proof. exact allocator_requests. Qed.
Print Assumptions C69_allocator_requests.
Theorem C69_trie_requests : forall b fuel tb c m n,
  every (xrequest b) c -> run (xstep fuel tb) None c m = Env n -> n <= b.
Proof. exact trie_requests. Qed.
Print Assumptions C69_trie_requests.

(** The premises can be met, and the bounds are close: with 65 objects the
    dynamic hashtable asks for 2048 bytes where the bound is 2080, and the linear
    one for 1024 where the bound is 1040. *)
Example C69_start_example : forall k, table_start big_om ∅ big_t ∅ (poor k big_m).
Proof. exact (fun k => poor_start k _ _ _ _ _ big_start). Qed.
Example C69_client_example :
  size big_om = 65%nat /\ allowed (trequest 0 big_om ∅) tpost (tstate0 big_om ∅) grow_client.
Proof. exact (conj big_size grow_client_requests). Qed.
Example C69_hashdyn_example :
  refused (run (tstep hashdyn_table 65 big_t) None grow_client (poor 4 big_m)) = Some 2048.
Proof. exact hashdyn_refused. Qed.
Example C69_hashlin_example :
  refused (run (tstep hashlin_table 65 big_t) None grow_client (poor 2 big_m)) = Some 1024.
Proof. exact hashlin_refused. Qed.
Example C69_hashtable_example :
  refused (run (tstep hashtable_table 0 big_t) None (prog_of_list [TInit 17]) (poor 0 big_m)) = Some 256.
Proof. exact hashtable_refused. Qed.
Example C69_array_client_example : forall k n, 0 <= n < 2 ^ 32 ->
  heap_live (poor k exa_m) exa_live /\
  allowed (arequest array_a n 8) (apost array_a) (astate0 exa_live) (prog_of_list [AInit 8; AGrow n]).
Proof. exact array_client_requests. Qed.
Example C69_array_example :
  refused (run (astep array_a) None (prog_of_list [AInit 8; AGrow 129]) (poor 2 exa_m)) = Some 1024.
Proof. exact array_refused. Qed.
Example C69_arrayof_example :
  refused (run (astep arrayof_a) None (prog_of_list [AInit 8; AGrow 129]) (poor 2 exa_m)) = Some 1024.
Proof. exact arrayof_refused. Qed.
Example C69_arrayblk_example :
  refused (run (astep arrayblk_a) None (prog_of_list [AInit 8; AGrow 1]) (poor 1 exa_m)) = Some 32768.
Proof. exact arrayblk_refused. Qed.
Example C69_allocator_example :
  every (prequest 5128) (prog_of_list [PInit 5000 64; PAlloc] : prog pop pout) /\
  refused (run pstep None (prog_of_list [PInit 5000 64; PAlloc]) (poor 0 exa_m)) = Some 5128.
Proof. exact alloc_requests_example. Qed.
