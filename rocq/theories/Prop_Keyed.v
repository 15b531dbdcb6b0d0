(** * Property C61: the tries and the hashtables as containers with keys. *)
From Verif Require Import ExamplesKeyed.
Global Open Scope Z_scope.

(** A client that inserts elements with keys, removes them by key or by node,
    searches and counts, deciding each operation from the answers so far, gets
    from the trie, from the inplace trie and from each of the hashtables, used
    with the key as hash, the same answers: those of [reference], which keeps
    the elements in a list in insertion order. *)
Theorem C61_trie : forall om tb live m fuel bs al c,
  trie_start om tb live m -> (10 <= fuel)%nat -> xpre (xstate0 om live) (XInit bs al) ->
  allowed kpre kpost (KState (dom om) []) c ->
  safe (run (xstep fuel tb) None (trie_client bs al c) m) (fun r _ => r.2.*2 = KNone :: reference [] c).
Proof. exact trie_reference. Qed.
Print Assumptions C61_trie.
Theorem C61_trie_inplace : forall om tb m fuel c,
  inp_start om tb m -> (14 <= fuel)%nat ->
  allowed kpre kpost (KState (dom om) []) c ->
  succeeds (run (istep fuel tb) None (inp_client c) m) (fun r _ => r.2.*2 = KNone :: reference [] c).
Proof. exact inp_reference. Qed.
Print Assumptions C61_trie_inplace.
(** For the hashtables, without bucket. *)
Theorem C61_hashtables : forall T om K t live m fuel n c,
  a_hashtable T ->
  table_start om K t live m -> (size om <= fuel)%nat -> 0 <= n <= 2 ^ 60 ->
  allowed kpre kpost (KState (dom om) []) c -> uses_only not_bucket c ->
  safe (run (tstep T fuel t) None (table_client n c) m) (fun r _ => kout_of <$> r.2.*2 = KNone :: reference [] c).
Proof. exact table_reference. Qed.
Print Assumptions C61_hashtables.
Example C61_premises :
  trie_start ex_om ex_tb ex_live ex_trie_m /\ xpre (xstate0 ex_om ex_live) (XInit 64 64) /\
  inp_start iex_om ex_tb iex_m /\ table_start ex_om ex_K ex_t ex_live ex_m /\
  allowed kpre kpost (KState (dom ex_om) []) keyed_prog /\
  allowed kpre kpost (KState (dom iex_om) []) keyed_prog /\ uses_only not_bucket keyed_prog.
Proof.
  exact (conj ex_trie_start (conj keyed_config (conj iex_start (conj ex_table_start
    (conj keyed_allowed (conj keyed_allowed_inp keyed_uses_only)))))).
Qed.
Example C61_example : keyed_trie = keyed_expected /\ keyed_inp = keyed_expected /\
  keyed_table hashtable_table = keyed_expected /\ keyed_table hashdyn_table = keyed_expected /\
  keyed_table hashlin_table = keyed_expected /\ KNone :: reference [] keyed_prog = keyed_expected.
Proof. exact keyed_run. Qed.
