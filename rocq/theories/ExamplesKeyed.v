(** * A concrete client of containers with keys *)
From Verif Require Export KeyedSwap ExamplesTable ExamplesInp.
Global Open Scope Z_scope.

(** A computable check that a client respects the preconditions *)
Fixpoint kcheck (free : gset Z) (es : list tent) (c : prog kop kout) : bool :=
  match c with
  | Done => true
  | Do o k => kcheck1 free es o && kcheck (kfree free es o) (kset_step es o) (k (kanswer es o))
  end.
Lemma kcheck_allowed c : ∀ s, kok s → kcheck (ks_free s) (ks_es s) c = true → allowed kpre kpost s c.
Proof.
  induction c as [|o k IH]; intros s Hok Hc; [done|]. apply andb_prop in Hc as [H1 H2].
  pose proof (kcheck1_pre _ _ H1) as Hp. split; [done|]. intros a s' Hq.
  destruct (kstep_ok _ _ _ _ Hok Hp Hq) as (H3 & H4 & ->). apply IH; [done|]. by rewrite (kfree_ok _ _ _ _ Hq) H4.
Qed.

(** Keys 5 (twice) and 4, that share all digits but the last, and 2^31.  What
    the client does after the search depends on the answer. *)
Definition keyed_prog : prog kop kout :=
  Do (KInsert 1008 1000 5) (fun _ => Do (KInsert 2008 2000 (2 ^ 31)) (fun _ =>
  Do (KInsert 3008 3000 4) (fun _ => Do (KInsert 4008 4000 5) (fun _ => Do KCount (fun _ =>
  Do (KSearch 5) (fun a => match a with
    | KWord d =>
        if d =? 1000 then prog_of_list [KRemove 5; KSearch 5; KRemove 6; KRemoveExisting 4008; KSearch 4; KCount; KSearch 5]
        else Do (KRemoveExisting 3008) (fun _ => Done)
    | _ => Done
    end)))))).
Definition keyed_expected : list kout :=
  [KNone; KNone; KNone; KNone; KNone; KWord 4; KWord 1000; KWord 1000; KWord 4000; KWord 0; KWord 4000;
   KWord 3000; KWord 2; KWord 0].

Lemma keyed_check : kcheck (dom ex_om) [] keyed_prog = true.
Proof. vm_compute. exact eq_refl. Qed.
Lemma keyed_check_inp : kcheck (dom iex_om) [] keyed_prog = true.
Proof. vm_compute. exact eq_refl. Qed.
Lemma keyed_allowed : allowed kpre kpost (KState (dom ex_om) []) keyed_prog.
Proof. apply kcheck_allowed; [apply kok0|exact keyed_check]. Qed.
Lemma keyed_allowed_inp : allowed kpre kpost (KState (dom iex_om) []) keyed_prog.
Proof. apply kcheck_allowed; [apply kok0|exact keyed_check_inp]. Qed.
Lemma keyed_uses_only : uses_only not_bucket keyed_prog.
Proof.
  unfold keyed_prog. do 6 (split; [exact I|intros ?]). destruct a4 as [|z|]; [exact I| |exact I].
  destruct (z =? 1000); simpl; intuition.
Qed.

Definition keyed_trie : list kout :=
  match run (xstep 10 ex_tb) None (trie_client 64 64 keyed_prog) ex_trie_m with Ok r _ => r.2.*2 | _ => [] end.
Definition keyed_inp : list kout :=
  match run (istep 14 ex_tb) None (inp_client keyed_prog) iex_m with Ok r _ => r.2.*2 | _ => [] end.
Definition keyed_table (T : table) : list kout :=
  match run (tstep T 4 ex_t) None (table_client 4 keyed_prog) ex_m with Ok r _ => kout_of <$> r.2.*2 | _ => [] end.
Lemma keyed_run : keyed_trie = keyed_expected ∧ keyed_inp = keyed_expected ∧
  keyed_table hashtable_table = keyed_expected ∧ keyed_table hashdyn_table = keyed_expected ∧
  keyed_table hashlin_table = keyed_expected ∧ KNone :: reference [] keyed_prog = keyed_expected.
Proof. split_and!; vm_compute; exact eq_refl. Qed.
Lemma keyed_config : xpre (xstate0 ex_om ex_live) (XInit 64 64).
Proof. simpl. split; [done|]. split; [lia|]. split; [by right|]. split; [done|]. by apply (fits_align16 64 64). Qed.
