(** * Specification of the inplace trie *)
From Verif Require Export TrieSpec InpTrie.
Global Open Scope Z_scope.

Inductive iop :=
| IInit              (* tommy_trie_inplace_init(trie), at any time *)
| IOp (o : kop)
| IUsage.            (* tommy_trie_inplace_memory_usage(trie) *)

(** The client's code for each operation on the trie with bucket array at
    [tb]; [None]: not initialised.  [fuel] bounds the iterations of the loops of
    the library. *)
Definition istep (fuel : nat) (tb : Z) (cs : option inptrie) (o : iop) : M (option inptrie * kout) :=
  match o, cs with
  | IInit, _ => t ← inp_init tb; mret (Some t, KNone)
  | _, None => ub
  | IOp (KInsert p d k), Some t => t' ← inp_insert fuel t p d k; mret (Some t', KNone)
  | IOp (KRemove k), Some t => r ← inp_remove fuel t k; mret (Some r.1, KWord r.2)
  | IOp (KRemoveExisting p), Some t => r ← inp_remove_existing fuel t p; mret (Some r.1, KWord r.2)
  | IOp (KSearch k), Some t => d ← inp_search fuel t k; mret (Some t, KWord d)
  | IOp (KBucket k), Some t => i ← inp_bucket_of fuel t k; l ← list_walk (Z.to_nat (inp_count t)) i; mret (Some t, KNodes l)
  | IOp KCount, Some t => mret (Some t, KWord (inp_count t))
  | IUsage, Some t => mret (Some t, KWord (inp_memory_usage t))
  end.

Record istate := IState { is_k : kstate; is_init : bool }.

Definition ipre (s : istate) (o : iop) : Prop :=
  match o with
  | IInit => True
  | IOp o => is_init s = true /\ kpre (is_k s) o
  | IUsage => is_init s = true
  end.

Definition ipost (s : istate) (o : iop) (a : kout) (s' : istate) : Prop :=
  let es := ks_es (is_k s) in
  match o with
  | IInit => a = KNone /\ s' = IState (KState (ks_free (is_k s) ∪ list_to_set (te_p <$> es)) []) true
  | IOp o => exists k', kpost (is_k s) o a k' /\ s' = IState k' true
  | IUsage => a = KWord (64 * Z.of_nat (length es)) /\ s' = s
  end.

(** The initial memory: the client's objects, whose nodes have eight words, and
    the bucket array of the trie, whose 64 words are allocated. *)
Definition inp_start (om : objmap) (tb : Z) (m : mem) : Prop :=
  client_ok 8 om (node_cells 64 tb) m /\
  (forall a, a ∈ node_cells 64 tb -> exists c, m !! a = Some c /\ wordcell c).

Definition istate0 (om : objmap) : istate := IState (KState (dom om) []) false.

(** The end of a history: the answers are correct, and count is the number of
    elements. *)
Definition inp_end (om : objmap) (cs : option inptrie) (tr : list (iop * kout)) : Prop :=
  exists s', correct ipost (istate0 om) tr s' /\
    if is_init s' then exists t, cs = Some t /\ inp_count t = Z.of_nat (length (ks_es (is_k s')))
    else cs = None.

(** ** Reading a transcript *)
Definition after_any_inp_history (Q : option inptrie -> list (iop * kout) -> Prop) : Prop :=
  forall om tb m fuel c, inp_start om tb m -> (14 <= fuel)%nat ->
  allowed ipre ipost (istate0 om) c ->
  succeeds (run (istep fuel tb) None c m) (fun r m' => Q r.1 r.2).

Definition iset_step (es : list tent) (o : iop) : list tent :=
  match o with IInit => [] | IOp o => kset_step es o | IUsage => es end.
Definition iset (ops : list iop) : list tent := foldl iset_step [] ops.
