(** * The arrays of pointers are interchangeable: proof of C63. *)
From Verif Require Export ArrayProps ArrayProof ArrayBlkProof TableSwap ExamplesArray.
Global Open Scope Z_scope.

(** The arrays of pointers *)
Inductive a_vector : arrays -> Prop :=
| a_vector_array : a_vector array_a
| a_vector_arrayblk : a_vector arrayblk_a.

(** A vector [v] under the operations grow, size, set, get and insert: what a
    client may do, the answers, and the new vector. *)
Definition vec_ok (v : list Z) (o : aop) : Prop :=
  match o with
  | AGrow n => 0 <= n <= 2 ^ 64 - 4096
  | ASize | AInsert _ => True
  | ASet i _ | AGet i => 0 <= i < Z.of_nat (length v)
  | _ => False
  end.
Definition vec_answer (v : list Z) (o : aop) : aout :=
  match o with
  | ASize => AOWord (Z.of_nat (length v))
  | AGet i => AOWord (nth (Z.to_nat i) v 0)
  | _ => AONone
  end.
Definition vec_next (v : list Z) (o : aop) : list Z :=
  match o with
  | AGrow n => v ++ replicate (Z.to_nat n - length v) 0
  | ASet i x => <[Z.to_nat i := x]> v
  | AInsert x => v ++ [x]
  | _ => v
  end.

(** The client respects the preconditions; and the answers it gets. *)
Fixpoint vec_allowed (v : list Z) (c : prog aop aout) : Prop :=
  match c with
  | Done => True
  | Do o k => vec_ok v o /\ vec_allowed (vec_next v o) (k (vec_answer v o))
  end.
Fixpoint vec_reference (v : list Z) (c : prog aop aout) : list aout :=
  match c with
  | Done => []
  | Do o k => vec_answer v o :: vec_reference (vec_next v o) (k (vec_answer v o))
  end.

Definition vrel (s : astate) (v : list Z) : Prop :=
  ∃ es, as_arr s = Some (1%nat, es) ∧ el_vals <$> es = (λ x, [x]) <$> v.

Lemma vrel_length (es : list elt) v : el_vals <$> es = (λ x, [x]) <$> v → length es = length v.
Proof. intros H. rewrite -(fmap_length el_vals es) H fmap_length //. Qed.

Lemma vec_pre T s v o : ay_words T = true → 2 ^ 64 - 4096 ≤ ay_max T → vrel s v → vec_ok v o → apre T s o.
Proof.
  intros Hw Hm (es & Hs & Hv) Ho. pose proof (vrel_length _ _ Hv) as Hl.
  destruct o; simpl in *; try (by destruct Ho); first
    [ by split; [rewrite Hs|lia] | by rewrite Hs | by split; [|exists 1%nat, es; rewrite Hl] | by split; [|rewrite Hs] ].
Qed.

Lemma vec_post T s v o a s' : ay_words T = true → vrel s v → vec_ok v o → apost T s o a s' →
  a = vec_answer v o ∧ vrel s' (vec_next v o).
Proof.
  intros Hw (es & Hs & Hv) Ho Hp. pose proof (vrel_length _ _ Hv) as Hl.
  destruct o; try done; simpl in *.
  - destruct Hp as (-> & k & es' & news & own & Hs' & -> & [Hn1 Hn2] & _). rewrite Hs in Hs'. injection Hs' as <- <-.
    split; [done|]. eexists. split; [done|]. rewrite !fmap_app Hv. f_equal.
    assert (length news = (Z.to_nat n - length v)%nat) as <- by lia.
    clear Hn1. induction Hn2 as [|e news He _ IH]; [done|]. rewrite fmap_cons /= IH He //.
  - destruct Hp as (k & es' & Hs' & -> & ->). rewrite Hs in Hs'. injection Hs' as <- <-. rewrite Hl. split; [done|]. by exists es.
  - destruct Hp as (es' & e & Hs' & He & -> & ->). rewrite Hs in Hs'. injection Hs' as <-. split; [done|].
    eexists. split; [done|]. rewrite !list_fmap_insert Hv //.
  - destruct Hp as (k & es' & p & x & Hs' & He & -> & ->). rewrite Hs in Hs'. injection Hs' as <- <-.
    split; [|by exists es]. f_equal. rewrite nth_lookup.
    assert (Hx : ((λ x, [x]) <$> v) !! Z.to_nat i = Some [x]) by (rewrite -Hv list_lookup_fmap He //).
    rewrite list_lookup_fmap in Hx. destruct (v !! Z.to_nat i); [|done]. by injection Hx as ->.
  - destruct Hp as (-> & es' & p & own & Hs' & -> & _). rewrite Hs in Hs'. injection Hs' as <-. split; [done|].
    eexists. split; [done|]. rewrite !fmap_app Hv //.
Qed.

Section one.
  Variable T : arrays.
  Hypothesis Hw : ay_words T = true.
  Hypothesis Hm : 2 ^ 64 - 4096 ≤ ay_max T.

  Lemma vec_allowed_ok c : ∀ s v, vrel s v → vec_allowed v c → allowed (apre T) (apost T) s c.
  Proof.
    induction c as [|o k IH]; intros s v Hr Ha; [done|]. destruct Ha as [Ho Ha]. split; [by eapply vec_pre|].
    intros a s' Hp. destruct (vec_post T s v o a s' Hw Hr Ho Hp) as [-> Hr']. eapply IH; eauto.
  Qed.
  Lemma vec_answers c : ∀ s v tr s', vrel s v → vec_allowed v c → produced c tr → correct (apost T) s tr s' →
    tr.*2 = vec_reference v c.
  Proof.
    induction c as [|o k IH]; intros s v tr s' Hr Ha Hp Hc.
    - by destruct tr.
    - destruct tr as [|[o' a] tr]; [done|]. destruct Hp as [-> Hp], Ha as [Ho Ha].
      inversion Hc as [|? ? ? s1 ? ? Hq Hc']; subst. destruct (vec_post T s v o a s1 Hw Hr Ho Hq) as [-> Hr'].
      simpl. f_equal. eapply IH; eauto.
  Qed.
End one.

Lemma vector_correct T live m c : a_vector T → heap_live m live →
  allowed (apre T) (apost T) (astate0 live) c →
  safe (run (astep T) None c m) (λ r _, ∃ s, correct (apost T) (astate0 live) r.2 s).
Proof.
  intros HT. destruct HT; intros Hl Ha.
  - eapply safe_mono; [exact (array_history array_a array_inv live m c (@array_ok) Hl Ha)|]. intros r m' [(s & ? & _) _]. by exists s.
  - eapply safe_mono; [exact (array_history arrayblk_a arrayblk_inv live m c (@arrayblk_ok) Hl Ha)|]. intros r m' [(s & ? & _) _]. by exists s.
Qed.

Lemma vectors_interchangeable T live m k c : a_vector T → heap_live m live → 1 ≤ k < 2 ^ 64 → vec_allowed [] c →
  safe (run (astep T) None (Do (AInit k) (λ _, c)) m) (λ r _, r.2.*2 = AONone :: vec_reference [] c).
Proof.
  intros HT Hl Hk Ha.
  assert (ay_words T = true ∧ 2 ^ 64 - 4096 ≤ ay_max T) as [Hw Hm] by (destruct HT; simpl; split; (done || lia)).
  assert (Hal : allowed (apre T) (apost T) (astate0 live) (Do (AInit k) (λ _, c))).
  { split; [done|]. intros a s' (-> & own & -> & _). rewrite Hw. eapply vec_allowed_ok; [done|done| |done]. by exists []. }
  pose proof (vector_correct T live m _ HT Hl Hal) as H.
  destruct (run _ _ _ _) as [r m'| | |] eqn:E; try done. destruct H as (s' & Hc).
  apply run_produced in E. destruct r as [cs [|[o a] tr]]; [done|]. destruct E as [-> E].
  inversion Hc as [|? ? ? s1 ? ? Hq Hc']; subst. destruct Hq as (-> & own & -> & _). simpl. f_equal.
  eapply vec_answers; [done| |done|done|exact Hc']. rewrite Hw. by exists [].
Qed.

(** ** A client that decides from the answers *)
Definition vec_client : prog aop aout :=
  Do (AGrow 3) (fun _ => Do (ASet 1 7) (fun _ => Do (AInsert 9) (fun _ => Do (AGet 1) (fun a => match a with
    | AOWord z => Do (AGrow (z * 50)) (fun _ => prog_of_list [ASize; AGet 3; AGet 349; AInsert 5; AGet 350; AGrow 2; ASize])
    | AONone => Done
    end)))).
Lemma vec_client_ok : vec_allowed [] vec_client.
Proof.
  unfold vec_client. cbn [vec_allowed vec_ok vec_next vec_answer prog_of_list].
  repeat first [exact I | split]; rewrite ?app_length ?insert_length ?replicate_length ?app_length ?insert_length ?replicate_length; simpl; try lia.
Qed.
Definition vec_answers_of (T : arrays) : list aout :=
  match run (astep T) None (Do (AInit 8) (fun _ => vec_client)) exa_m with Ok r _ => r.2.*2 | _ => [] end.
Definition vec_expected : list aout :=
  [AONone; AONone; AONone; AONone; AOWord 7; AONone; AOWord 350; AOWord 9; AOWord 0; AONone; AOWord 5; AONone; AOWord 351].
Lemma vec_run : vec_answers_of array_a = vec_expected ∧ vec_answers_of arrayblk_a = vec_expected ∧
  AONone :: vec_reference [] vec_client = vec_expected.
Proof. split_and!; vm_compute; exact eq_refl. Qed.
