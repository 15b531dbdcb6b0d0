(** * A client of the tree whose comparison is not an order *)
From Verif Require Export TreeAny ExamplesTree.
Global Open Scope Z_scope.

(** What only inserts nodes that were never inserted before, searches, removes,
    counts and visits is allowed, with any comparison. *)
Definition ins_of (o : trop) : list Z := match o with TrInsert p _ => [p] | _ => [] end.
Definition plain_op (o : trop) : Prop :=
  match o with TrInsert _ _ | TrRemove _ | TrSearch _ | TrCount | TrUsage | TrForeach | TrForeachArg _ => True | _ => False end.
Lemma any_allowed om K ops : ∀ s, Forall plain_op ops → NoDup (ops ≫= ins_of) → is_Some (as_tree s) →
  (∀ p, p ∈ ops ≫= ins_of → p ∈ as_free s) → allowed (anypre om K (λ _, True)) anypost s (prog_of_list ops).
Proof.
  induction ops as [|o ops IH]; intros s Hp Hnd Hs Hfr; [done|]. apply Forall_cons in Hp as [Ho Hp]. csimpl in *.
  apply NoDup_app in Hnd as (_ & Hnd0 & Hnd). split.
  { destruct o; try done; simpl in *. split; [done|]. split; [|done]. apply Hfr. set_solver. }
  intros a s' Hpost. apply IH; [done|done| |].
  - destruct o; try done; simpl in Hpost.
    + destruct Hpost as (f & xs & z & calls & H1 & _ & _ & [(q & _ & _ & ->)|(l & r & _ & _ & ->)]); [done|by eexists].
    + destruct Hpost as (f & xs & z & calls & H1 & _ & _ & [(l & q & r & _ & _ & ->)|(_ & ->)]); [by eexists|done].
    + by destruct Hpost as (f & xs & z & calls & H1 & _ & _ & -> & _).
    + by destruct Hpost as (f & xs & H1 & _ & ->).
    + by destruct Hpost as (f & xs & H1 & _ & ->).
    + by destruct Hpost as (f & xs & H1 & _ & ->).
    + by destruct Hpost as (f & xs & H1 & _ & ->).
  - intros p Hin. assert (Hp' : p ∈ as_free s) by (apply Hfr; set_solver).
    destruct o; try done; simpl in Hpost.
    + destruct Hpost as (f & xs & z & calls & H1 & _ & _ & [(q & _ & _ & ->)|(l & r & _ & _ & ->)]); [done|]. simpl in *.
      assert (p ≠ p0) by (intros ->; apply (Hnd0 p0); [set_solver|done]). set_solver.
    + destruct Hpost as (f & xs & z & calls & H1 & _ & _ & [(l & q & r & _ & _ & ->)|(_ & ->)]); [|done]. simpl. set_solver.
    + by destruct Hpost as (f & xs & z & calls & H1 & _ & _ & -> & _).
    + by destruct Hpost as (f & xs & H1 & _ & ->).
    + by destruct Hpost as (f & xs & H1 & _ & ->).
    + by destruct Hpost as (f & xs & H1 & _ & ->).
    + by destruct Hpost as (f & xs & H1 & _ & ->).
Qed.

(** A comparison that looks only at the number of the calls made so far by the
    operation: "greater", "smaller", "equal". *)
Definition ex_fickle (a b : Z) : M Z := fun m =>
  match m !! ex_t with
  | Some (Tape []) => Ok 1 m
  | Some (Tape [_; _]) => Ok (-1) m
  | _ => Ok 0 m
  end.
Lemma ex_fickle_answers a b : answers ∅ ex_fickle a b.
Proof. intros m _. unfold ex_fickle. destruct (m !! ex_t) as [[?| |?|[|? [|? [|? ?]]]|?]|]; eauto. Qed.

Definition ex_any_ops : list trop :=
  [TrInsert 1008 1000; TrInsert 2008 2000; TrInsert 3008 3000; TrInsert 4008 4000; TrInsert 5008 5000;
   TrForeach; TrSearch 1000; TrSearch 5000; TrRemove 1000; TrForeach; TrCount; TrRemove 1000; TrCount].
Definition ex_any_client : prog trop trout := prog_of_list (TrInit ex_fickle (λ _ _, 0) :: ex_any_ops).
Lemma ex_any_allowed : allowed (anypre ex7_om ∅ (λ _, True)) anypost (anystate0 ex7_om ∅) ex_any_client.
Proof.
  split; [intros a b _ _; apply ex_fickle_answers|]. intros a s' [_ ->]. apply any_allowed.
  - repeat constructor.
  - apply (bool_decide_unpack _). vm_compute. exact I.
  - by eexists.
  - intros p. vm_compute (_ ≫= _). cbn [as_free anystate0 any_nodes as_tree]. intros Hp. apply elem_of_union_l, elem_of_dom.
    repeat (apply elem_of_cons in Hp as [->|Hp]; [vm_compute; by eexists|]). by apply elem_of_nil in Hp.
Qed.
Definition ex_any_answers : list trout :=
  match run (trstep 12 ex_t) None ex_any_client ex7_m with Ok r _ => r.2.*2 | _ => [] end.

(** A comparison that is never "equal", not even of an element and itself *)
Definition ex_greater (a b : Z) : M Z := mret 1.
Definition ex_lost : res (option treeS * list (trop * trout)) :=
  run (trstep 12 ex_t) None (prog_of_list [TrInit ex_greater (λ _ _, 1); TrInsert 1008 1000; TrRemoveExisting 1008]) ex7_m.
Lemma ex_any_run : ex_any_answers =
  [TrNone; TrFound 1000 []; TrFound 2000 [2000; 1000]; TrFound 3000 [3000; 1000; 3000; 2000];
   TrFound 3000 [4000; 1000; 4000; 2000; 4000; 3000]; TrFound 3000 [5000; 1000; 5000; 2000; 5000; 3000];
   TrData [1000; 3000; 2000]; TrFound 3000 [1000; 1000; 1000; 2000; 1000; 3000];
   TrFound 3000 [5000; 1000; 5000; 2000; 5000; 3000]; TrFound 3000 [1000; 1000; 1000; 2000; 1000; 3000];
   TrData [1000; 2000]; TrWord 2; TrFound 0 [1000; 1000; 1000; 2000]; TrWord 2].
Proof. vm_compute. reflexivity. Qed.
Lemma ex_lost_ub : ex_lost = UB.
Proof. vm_compute. reflexivity. Qed.
