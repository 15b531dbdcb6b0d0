(** * C66: each bucket holds exactly the elements whose hashes select it *)
From Verif Require Import ExamplesChain.
Global Open Scope Z_scope.

(** In every theorem: after any history that leaves the table with the elements
    [es], the chain that bucket returns for a hash [h] consists of the elements
    whose hashes select the same bucket as [h], and of no other, those with hash
    [h] in insertion order.  A search makes at most as many steps of its loop
    (its fuel) as there are elements in that chain, for any comparison that only
    looks.  The chains of all the buckets together hold every element once, so
    their average length is the number of elements over the number of buckets. *)

(** The fixed table has [ht_bucket_max] buckets, and a hash selects the bucket
    given by the remainder. *)
Theorem C66_hashtable_chains : after_any_history hashtable_table (fun om live cs tr m' =>
  exists s, correct tpost (tstate0 om live) tr s /\
  forall es, ts_tab s = TabEs es -> exists st, cs = Some st /\
    let slot h := h mod ht_bucket_max st in
    sum_list (chain_lengths slot (Z.to_nat (ht_bucket_max st)) es) = length es /\
    forall h, word h -> 0 <= slot h < ht_bucket_max st /\
      exists i xs, hashtable_bucket st h m' = Ok i m' /\
      Permutation xs (filter (fun e => slot (en_h e) = slot h) es) /\
      filter (fun e => en_h e = h) xs = filter (fun e => en_h e = h) es /\
      (forall fuel, (length xs <= fuel)%nat ->
        list_walk fuel i m' = Ok ((fun e => (en_p e, en_d e)) <$> xs) m') /\
      forall cmp arg, looks cmp -> hashtable_search (length xs) st cmp arg h m' <> Fuel).
Proof.
  exact (table_chains hashtable_table hashtable_inv ht_bucket_max hashtable_history
    (fun _ _ _ _ _ => eq_refl) hashtable_slot_range).
Qed.
Print Assumptions C66_hashtable_chains.

(** The dynamic table has [hd_bucket_max] buckets, more than twice the number of
    its elements (C13). *)
Theorem C66_hashdyn_chains : after_any_history hashdyn_table (fun om live cs tr m' =>
  exists s, correct tpost (tstate0 om live) tr s /\
  forall es, ts_tab s = TabEs es -> exists st, cs = Some st /\
    let slot h := h mod hd_bucket_max st in
    sum_list (chain_lengths slot (Z.to_nat (hd_bucket_max st)) es) = length es /\
    forall h, word h -> 0 <= slot h < hd_bucket_max st /\
      exists i xs, hashdyn_bucket st h m' = Ok i m' /\
      Permutation xs (filter (fun e => slot (en_h e) = slot h) es) /\
      filter (fun e => en_h e = h) xs = filter (fun e => en_h e = h) es /\
      (forall fuel, (length xs <= fuel)%nat ->
        list_walk fuel i m' = Ok ((fun e => (en_p e, en_d e)) <$> xs) m') /\
      forall cmp arg, looks cmp -> hashdyn_search (length xs) st cmp arg h m' <> Fuel).
Proof.
  exact (table_chains hashdyn_table hashdyn_inv hd_bucket_max hashdyn_history
    (fun _ _ _ _ _ => eq_refl) hashdyn_slot_range).
Qed.
Print Assumptions C66_hashdyn_chains.

(** The linear table has [hl_low_max + hl_split] buckets; those below [hl_split]
    have been divided in two. *)
Theorem C66_hashlin_chains : after_any_history hashlin_table (fun om live cs tr m' =>
  exists s, correct tpost (tstate0 om live) tr s /\
  forall es, ts_tab s = TabEs es -> exists st, cs = Some st /\
    let slot h := if decide (h mod hl_low_max st < hl_split st) then h mod hl_bucket_max st else h mod hl_low_max st in
    sum_list (chain_lengths slot (Z.to_nat (hl_low_max st + hl_split st)) es) = length es /\
    forall h, word h -> 0 <= slot h < hl_low_max st + hl_split st /\
      exists i xs, hashlin_bucket st h m' = Ok i m' /\
      Permutation xs (filter (fun e => slot (en_h e) = slot h) es) /\
      filter (fun e => en_h e = h) xs = filter (fun e => en_h e = h) es /\
      (forall fuel, (length xs <= fuel)%nat ->
        list_walk fuel i m' = Ok ((fun e => (en_p e, en_d e)) <$> xs) m') /\
      forall cmp arg, looks cmp -> hashlin_search (length xs) st cmp arg h m' <> Fuel).
Proof.
  exact (table_chains hashlin_table hashlin_inv (fun st => hl_low_max st + hl_split st) hashlin_history
    (fun _ _ _ _ _ => eq_refl) hashlin_slot_range).
Qed.
Print Assumptions C66_hashlin_chains.

(** A client, a comparison and the run: the hashes 5, 5 and 2^63 + 5 select one
    bucket, and the search of the last one needs three steps. *)
Example C66_start_example : table_start ex_om ex_K ex_t ex_live ex_m.
Proof. exact ex_table_start. Qed.
Example C66_client_example : allowed (tpre ex_om ex_K) tpost (tstate0 ex_om ex_live) (prog_of_list chain_ops).
Proof. exact chain_allowed. Qed.
Example C66_looks_example : looks ex_kany.
Proof. exact ex_kany_looks. Qed.
Example C66_run_example : chain_answers hashtable_table = chain_expected /\
  chain_answers hashdyn_table = chain_expected /\ chain_answers hashlin_table = chain_expected.
Proof. exact chain_run. Qed.
Example C66_sizes_example :
  chain_lengths (fun h => h mod 16) 16
    [Ent 1008 1000 5; Ent 2008 2000 5; Ent 3008 3000 (2 ^ 63 + 5); Ent 4008 4000 6] =
  [0; 0; 0; 0; 0; 3; 1; 0; 0; 0; 0; 0; 0; 0; 0; 0]%nat.
Proof. exact chain_sizes. Qed.
