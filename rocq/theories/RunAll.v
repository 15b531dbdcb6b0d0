(** * Runs of a client with all the intermediate structs. *)
From Verif Require Export Client.
Global Open Scope Z_scope.

Section run_all.
  Context {op out cst sst : Type}.
  Variable step : cst -> op -> M (cst * out).
  Variable pre : sst -> op -> Prop.
  Variable post : sst -> op -> out -> sst -> Prop.

  (** As [run], recording the struct after each operation. *)
  Fixpoint run_all (cs : cst) (c : prog op out) : M (list (op * out * cst)) :=
    match c with
    | Done => mret []
    | Do o k =>
        r ← step cs o;
        l ← run_all r.1 (k r.2);
        mret ((o, r.2, r.1) :: l)
    end.

  (** The struct after the operations [l]. *)
  Fixpoint struct_after (cs : cst) (l : list (op * out * cst)) : cst :=
    match l with [] => cs | x :: l => struct_after x.2 l end.

  Fixpoint trunc (n : nat) (c : prog op out) : prog op out :=
    match n, c with
    | S n, Do o k => Do o (fun a => trunc n (k a))
    | _, _ => Done
    end.

  Lemma struct_after_snoc cs l x : struct_after cs (l ++ [x]) = x.2.
  Proof. revert cs. induction l as [|y l IH]; intros cs; simpl; [done|]. apply IH. Qed.

  Lemma struct_after_app cs l1 l2 : struct_after cs (l1 ++ l2) = struct_after (struct_after cs l1) l2.
  Proof. revert cs. induction l1 as [|y l1 IH]; intros cs; simpl; [done|]. apply IH. Qed.

  Lemma bind_ok {A B} (c : M A) (k : A → M B) m v m' :
    (c ≫= k) m = Ok v m' → ∃ a m1, c m = Ok a m1 ∧ k a m1 = Ok v m'.
  Proof. rewrite /mbind /M_bind. destruct (c m) as [a m1| | |]; try done. eauto. Qed.

  Lemma trunc_allowed n s c : allowed pre post s c → allowed pre post s (trunc n c).
  Proof.
    revert s c. induction n as [|n IH]; intros s c Ha; [done|]. destruct c as [|o k]; [done|]. simpl in *.
    destruct Ha as [Hp Ha]. split; [done|]. intros a s' Hpost. apply IH. by apply Ha.
  Qed.

  Lemma run_all_trunc c : ∀ cs m l m' l1 l2, run_all cs c m = Ok l m' → l = l1 ++ l2 →
    ∃ m1, run step cs (trunc (length l1) c) m = Ok (struct_after cs l1, l1.*1) m1.
  Proof.
    induction c as [|o k IH]; intros cs m l m' l1 l2 Hr Heq; simpl in Hr.
    - injection Hr as <- <-. destruct l1; [by exists m|done].
    - apply bind_ok in Hr as (r & m1 & Hs & Hr). apply bind_ok in Hr as (l' & m2 & Hr & Hret).
      injection Hret as <- <-. destruct l1 as [|x l1]; [by exists m|]. simpl in Heq. injection Heq as <- ->.
      destruct (IH _ _ _ _ _ l1 l2 Hr eq_refl) as (m3 & H3). exists m3. simpl.
      rewrite /mbind /M_bind Hs. by rewrite H3.
  Qed.

  Lemma run_all_ok c : ∀ cs m r m', run step cs c m = Ok r m' →
    ∃ l, run_all cs c m = Ok l m' ∧ r = (struct_after cs l, l.*1).
  Proof.
    induction c as [|o k IH]; intros cs m r m' Hr; simpl in Hr.
    - injection Hr as <- <-. by exists [].
    - apply bind_ok in Hr as (x & m1 & Hs & Hr). apply bind_ok in Hr as (y & m2 & Hr & Hret).
      injection Hret as <- <-. destruct (IH _ _ _ _ _ Hr) as (l & Hl & ->). exists ((o, x.2, x.1) :: l).
      split; [|done]. simpl. by rewrite /mbind /M_bind Hs Hl.
  Qed.

  Lemma run_all_env c : ∀ cs m n, run step cs c m = Env n → run_all cs c m = Env n.
  Proof.
    induction c as [|o k IH]; intros cs m n Hr; simpl in *; [done|].
    rewrite /mbind /M_bind in Hr |- *. destruct (step cs o m) as [x m1| |n1|]; try done; [|by injection Hr as ->].
    destruct (run step x.1 (k x.2) m1) as [y m2| |n2|] eqn:E; try done. rewrite (IH _ _ _ _ E). by injection Hr as ->.
  Qed.

  Lemma run_all_pre c : ∀ cs m l m' l1 o a cs' l2 s s1, run_all cs c m = Ok l m' →
    l = l1 ++ (o, a, cs') :: l2 → allowed pre post s c → correct post s l1.*1 s1 → pre s1 o.
  Proof.
    induction c as [|o' k IH]; intros cs m l m' l1 o a cs' l2 s s1 Hr Heq Ha Hc; simpl in Hr.
    - injection Hr as <- <-. by destruct l1.
    - apply bind_ok in Hr as (r & m1 & Hs & Hr). apply bind_ok in Hr as (l' & m2 & Hr & Hret).
      injection Hret as <- <-. destruct Ha as [Hp Ha]. destruct l1 as [|x l1]; simpl in *.
      + injection Heq as ? ? ? ?; subst. inversion Hc; by subst.
      + injection Heq as <- ->. simpl in Hc. inversion Hc as [|? ? ? s' ? ? Hpost Hc']; subst.
        eapply IH; [exact Hr|done|by apply Ha|done].
  Qed.

  Lemma run_all_step c : ∀ cs m l m' l1 o a cs' l2, run_all cs c m = Ok l m' →
    l = l1 ++ (o, a, cs') :: l2 → ∃ m1 m2, step (struct_after cs l1) o m1 = Ok (cs', a) m2.
  Proof.
    induction c as [|o' k IH]; intros cs m l m' l1 o a cs' l2 Hr Heq; simpl in Hr.
    - injection Hr as <- <-. by destruct l1.
    - apply bind_ok in Hr as (r & m1 & Hs & Hr). apply bind_ok in Hr as (l' & m2 & Hr & Hret).
      injection Hret as <- <-. destruct l1 as [|x l1]; simpl in *.
      + injection Heq as ? ? ? ?; subst. exists m, m1. by destruct r.
      + injection Heq as <- ->. by eapply IH.
  Qed.
End run_all.
