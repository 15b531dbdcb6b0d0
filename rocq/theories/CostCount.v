(** * Accesses in terms of a number that the code counts. *)
From Verif Require Export Cost.
Global Open Scope Z_scope.

Section counted.
  Variable w : Z.
  Implicit Types n x : Z.
  (** [cw] does what [c] does and also returns a number; each unit of it pays for [w]
      accesses of [c], [n] are not paid for. *)
  Definition counted n {A} (c : M A) (cw : M (A * Z)) : Prop :=
    ∀ m, ∃ l, logged c m l (c m) ∧ ∀ v m', c m = Ok v m' → ∃ x, cw m = Ok (v, x) m' ∧ Z.of_nat (length l) ≤ n + w * x.
  Lemma ct_le {A} n n' (c : M A) cw : counted n' c cw → n' ≤ n → counted n c cw.
  Proof.
    intros H Hn m. destruct (H m) as (l & H1 & H2). exists l. split; [done|]. intros v m' E.
    destruct (H2 _ _ E) as (x & H3 & H4). exists x. split; [done|lia].
  Qed.
  Lemma ct_ret {A} (v : A) x n : 0 ≤ n + w * x → counted n (mret v) (mret (v, x)).
  Proof. intros Hn m. exists []. split; [constructor|]. intros v' m' [= <- <-]. exists x. split; [done|simpl; lia]. Qed.
  Lemma ct_fuel {A} n : counted n (@fuel_out A) fuel_out.
  Proof. intros m. exists []. by split; [constructor|]. Qed.
  (** a part that does not count *)
  Lemma ct_step {A B} n a (c : M A) (k : A → M B) kw :
    at_most a c → (∀ v, counted (n - Z.of_nat a) (k v) (kw v)) → counted n (c ≫= k) (c ≫= kw).
  Proof.
    intros Hc Hk m. destruct (Hc m) as (l & H1 & H2). unfold mbind, M_bind. destruct (c m) as [v m'| |e|] eqn:E.
    - destruct (Hk v m') as (l' & H3 & H4). exists (l ++ l'). split; [by eapply lg_bind|]. intros v' m'' E'.
      destruct (H4 _ _ E') as (x & H5 & H6). exists x. split; [done|]. rewrite app_length. lia.
    - exists l. by split; [apply lg_bind_ub|].
    - exists l. by split; [apply lg_bind_env|].
    - exists l. by split; [apply lg_bind_fuel|].
  Qed.
  Lemma ct_bind {A B} n n1 (c : M A) cw (k : A → M B) kw :
    counted n1 c cw → (∀ v x, counted (n - n1 - w * x) (k v) (kw (v, x))) → counted n (c ≫= k) (cw ≫= kw).
  Proof.
    intros Hc Hk m. destruct (Hc m) as (l & H1 & H2). unfold mbind, M_bind. destruct (c m) as [v m'| |e|] eqn:E.
    - destruct (H2 _ _ eq_refl) as (x & Ew & Hl). rewrite Ew.
      destruct (Hk v x m') as (l' & H3 & H4). exists (l ++ l'). split; [by eapply lg_bind|]. intros v' m'' E'.
      destruct (H4 _ _ E') as (x' & H5 & H6). exists x'. split; [done|]. rewrite app_length. lia.
    - exists l. by split; [apply lg_bind_ub|].
    - exists l. by split; [apply lg_bind_env|].
    - exists l. by split; [apply lg_bind_fuel|].
  Qed.
  Lemma ct_tail {A} n n1 (c : M A) cw (g : A * Z → Z) :
    counted n1 c cw → (∀ v x, n1 + w * x ≤ n + w * g (v, x)) → counted n c (r ← cw; mret (r.1, g r)).
  Proof.
    intros Hc Hg m. destruct (Hc m) as (l & H1 & H2). exists l. split; [done|]. intros v m' E.
    destruct (H2 _ _ E) as (x & Ew & Hl). unfold mbind, M_bind. rewrite Ew. exists (g (v, x)). split; [done|].
    specialize (Hg v x). lia.
  Qed.
  Lemma ct_last {A} n n1 (c : M A) cw k kw :
    counted n1 c cw → (∀ v x, at_most k (kw v) ∧ n1 + Z.of_nat k ≤ n) →
    counted n (c ≫= kw) (r ← cw; kw r.1;; mret (tt, r.2)).
  Proof.
    intros Hc Hk. eapply ct_bind; [done|]. intros v x. cbn [fst snd]. destruct (Hk v x) as [H1 H2]. intros m.
    destruct (H1 m) as (l & H3 & H4). exists l. split; [done|]. intros [] m' E. unfold mbind, M_bind. rewrite E.
    exists x. split; [done|lia].
  Qed.
End counted.
Ltac ct := eapply ct_step; [solve [eauto with am nocore]|intros ?].
