(** * With enough memory every history completes. *)
From Verif Require Export RoomSpec Requests.
Global Open Scope Z_scope.

Section roomy.
  Variable stride : Z.

  (** [c] asks malloc for at most [k] blocks of at most [stride] bytes; its
      results satisfy [Q]. *)
  Definition roomy {A} (k : Z) (Q : A → Prop) (c : M A) : Prop :=
    ∀ m base, room base stride m →
    match c m with
    | Ok v m' => Q v ∧ ∃ j, 0 ≤ j ≤ k ∧ room (base + stride * j) stride m'
    | Env n => 2 ^ 64 ≤ base + stride * k
    | _ => True
    end.

  Lemma room_0 base m : room base stride m → room (base + stride * 0) stride m.
  Proof. by rewrite Z.mul_0_r Z.add_0_r. Qed.
  Lemma roomy_same {A} (Q : A → Prop) (c : M A) :
    (∀ m, match c m with Ok v m' => Q v ∧ m' = m | Env _ => False | _ => True end) → roomy 0 Q c.
  Proof.
    intros H m base Hm. specialize (H m). destruct (c m) as [v m'| | |]; try done.
    destruct H as [? ->]. split; [done|]. exists 0. split; [done|]. by apply room_0.
  Qed.
  Lemma roomy_ret {A} k (Q : A → Prop) v : 0 ≤ k → Q v → roomy k Q (mret v).
  Proof.
    intros Hk H m base Hm. simpl. split; [done|]. exists 0. split; [lia|]. by apply room_0.
  Qed.
  Lemma roomy_ub {A} k (Q : A → Prop) : roomy k Q ub.
  Proof. done. Qed.
  Lemma roomy_fuel {A} k (Q : A → Prop) : roomy k Q fuel_out.
  Proof. done. Qed.
  Lemma roomy_mono {A} k k' (R Q : A → Prop) c : roomy k R c → k ≤ k' → (∀ v, R v → Q v) → roomy k' Q c.
  Proof.
    intros Hc Hkk H m base Hm. specialize (Hc m base Hm).
    destruct (c m) as [v m'| |n|]; try done.
    - destruct Hc as (? & j & Hj & ?). split; [auto|]. exists j. split; [lia|done].
    - destruct Hm as (_ & _ & Hs & _).
      assert (stride * k ≤ stride * k') by (apply Z.mul_le_mono_nonneg_l; lia). lia.
  Qed.
  Lemma roomy_bind {A B} k1 k2 (R : A → Prop) (Q : B → Prop) c f :
    roomy k1 R c → (∀ v, R v → roomy k2 Q (f v)) → 0 ≤ k2 → roomy (k1 + k2) Q (c ≫= f).
  Proof.
    intros Hc Hf Hk2 m base Hm. specialize (Hc m base Hm).
    rewrite /mbind /M_bind. destruct (c m) as [v m'| |n|]; try done.
    - destruct Hc as (HR & j & Hj & Hm'). pose proof (Hf v HR m' _ Hm') as Hf'.
      destruct (f v m') as [w m''| |n|]; try done.
      + destruct Hf' as (? & j' & Hj' & Hm''). split; [done|]. exists (j + j'). split; [lia|].
        by rewrite Z.mul_add_distr_l Z.add_assoc.
      + destruct Hm as (_ & _ & Hs & _).
        assert (stride * j ≤ stride * k1) by (apply Z.mul_le_mono_nonneg_l; lia). lia.
    - destruct Hm as (_ & _ & Hs & _).
      assert (0 ≤ stride * k2) by (apply Z.mul_nonneg_nonneg; lia). lia.
  Qed.
  (** The first part asks for nothing. *)
  Lemma roomy_bind0 {A B} k (Q : B → Prop) (c : M A) f :
    0 ≤ k → roomy 0 any c → (∀ v, roomy k Q (f v)) → roomy k Q (c ≫= f).
  Proof. intros Hk Hc Hf. rewrite -(Z.add_0_l k). eapply roomy_bind; [exact Hc|by intros|done]. Qed.
  (** The first part asks for all. *)
  Lemma roomy_bind1 {A B} k (R : A → Prop) (Q : B → Prop) (c : M A) f :
    roomy k R c → (∀ v, R v → roomy 0 Q (f v)) → roomy k Q (c ≫= f).
  Proof. intros Hc Hf. rewrite -(Z.add_0_r k). eapply roomy_bind; [exact Hc|done|done]. Qed.

  Lemma room_insert base m a c0 c : m !! a = Some c0 → (∀ h, c0 ≠ Ctl h) → room base stride m →
    room base stride (<[a := c]> m).
  Proof.
    intros Ha Hc0 (H0 & H1 & H2 & H3 & h & Hh & Ho & Hd & Hl). do 4 (split; [done|]). exists h.
    split; [|split; [done|split; [|done]]].
    - rewrite lookup_insert_ne; [done|]. intros ->. rewrite Hh in Ha. injection Ha as <-. by eapply Hc0.
    - apply map_Forall_insert_2; [|done]. by apply (Hd a c0).
  Qed.
  Lemma roomy_upd {A} (Q : A → Prop) (c : M A) : (∀ m, match c m with
    | Ok v m' => Q v ∧ ∃ a c0 c, m !! a = Some c0 ∧ (∀ h, c0 ≠ Ctl h) ∧ m' = <[a := c]> m | Env _ => False | _ => True end) →
    roomy 0 Q c.
  Proof.
    intros H m base Hm. specialize (H m). destruct (c m) as [v m'| | |]; try done.
    destruct H as (? & a & c0 & c1 & Ha & Hc & ->). split; [done|]. exists 0. split; [done|]. apply room_0. by eapply room_insert.
  Qed.
  Lemma roomy_load a : roomy 0 any (load a).
  Proof. apply roomy_same. intros m. rewrite /load. by destruct (m !! a) as [[]|]. Qed.
  Lemma roomy_loadb a : roomy 0 any (loadb a).
  Proof. apply roomy_same. intros m. rewrite /loadb. by destruct (m !! a) as [[]|]. Qed.
  Lemma roomy_massert x : roomy 0 any (massert x).
  Proof. apply roomy_same. by destruct x. Qed.
  Lemma roomy_store a v : roomy 0 any (store a v).
  Proof.
    apply roomy_upd. intros m. rewrite /store. destruct (m !! a) as [[]|] eqn:E; try done;
      (split; [done|]; eexists _, _, _; split; [exact E|]; done).
  Qed.
  Lemma roomy_storeb a v : roomy 0 any (storeb a v).
  Proof.
    apply roomy_upd. intros m. rewrite /storeb. destruct (m !! a) as [[]|] eqn:E; try done;
      (split; [done|]; eexists _, _, _; split; [exact E|]; done).
  Qed.
  Lemma roomy_push a v : roomy 0 any (tape_push a v).
  Proof.
    apply roomy_upd. intros m. rewrite /tape_push. destruct (m !! a) as [[]|] eqn:E; try done;
      (split; [done|]; eexists _, _, _; split; [exact E|]; done).
  Qed.
  Lemma roomy_take a : roomy 0 any (tape_take a).
  Proof.
    apply roomy_upd. intros m. rewrite /tape_take. destruct (m !! a) as [[]|] eqn:E; try done;
      (split; [done|]; eexists _, _, _; split; [exact E|]; done).
  Qed.
  Lemma delete_all_sub ks m : delete_all ks m ⊆ m.
  Proof. induction ks as [|k ks IH]; simpl; [done|]. etrans; [apply delete_subseteq|done]. Qed.
  Lemma roomy_free a : roomy 0 any (free a).
  Proof.
    intros m base Hm. rewrite /free. destruct (decide (a = 0)).
    { split; [done|]. exists 0. split; [done|]. by apply room_0. }
    pose proof Hm as (H0 & H1 & H2 & H3 & h & Hh & Ho & Hd & Hl). rewrite Hh.
    destruct (hc_live h !! a) as [r|] eqn:E; [|done]. split; [done|]. exists 0. split; [done|]. apply room_0.
    do 4 (split; [done|]). eexists. split; [apply lookup_insert|]. split; [done|]. split.
    - apply map_Forall_insert_2; [by apply (Hd _ _ Hh)|]. intros k c Hk. apply (Hd k c).
      eapply lookup_weaken; [exact Hk|apply delete_all_sub].
    - simpl. by apply map_Forall_delete.
  Qed.
  Lemma roomy_region r c : region_bytes r ≤ stride → roomy 1 any (alloc_region r c).
  Proof.
    intros Hr m base Hm. rewrite /alloc_region.
    destruct Hm as (H0 & H1 & H2 & H3 & h & Hh & Ho & Hd & Hl). rewrite Hh. cbv zeta.
    pose proof (Ho 0%nat) as Ho0. rewrite Nat.add_0_r Z.mul_0_r Z.add_0_r in Ho0. rewrite Ho0.
    assert (Hr0 : 0 ≤ region_bytes r) by (destruct r; simpl; lia). rewrite Z.mul_1_r.
    destruct (decide (fresh_ok m h base r)) as [Hf|Hf].
    - split; [done|]. exists 1. split; [lia|]. rewrite Z.mul_1_r.
      split; [lia|]. split; [by rewrite Zplus_mod H1 H3|]. split; [done|]. split; [done|].
      eexists. split; [apply lookup_insert|]. simpl. split; [|split].
      + intros i. specialize (Ho (S i)). rewrite Nat.add_succ_r in Ho. rewrite Ho. lia.
      + apply map_Forall_insert_2; [specialize (Hd _ _ Hh); simpl in Hd; lia|].
        intros k x [Hk|[_ Hk]]%lookup_union_Some_raw; [|specialize (Hd _ _ Hk); simpl in Hd; lia].
        apply elem_of_list_to_map_2, elem_of_list_fmap in Hk as (k' & [= <- <-] & Hk').
        destruct r as [n|n]; simpl in Hk', Hr; apply elem_of_list_fmap in Hk' as (i & -> & Hi%elem_of_seq); lia.
      + apply map_Forall_insert_2; [lia|]. intros b r' Hb. specialize (Hl _ _ Hb). simpl in Hl. lia.
    - destruct (decide (2 ^ 64 ≤ base + stride)) as [|Hn]; [done|]. destruct Hf. split; [done|]. split; [done|].
      split; [lia|]. split; [|split].
      + intros k x Hk. specialize (Hd _ _ Hk). simpl in Hd. lia.
      + intros b r' Hb. specialize (Hl _ _ Hb). simpl in Hl. lia.
      + destruct (hc_live h !! base) as [r'|] eqn:E; [|done]. specialize (Hl _ _ E). simpl in Hl. lia.
  Qed.
  Lemma roomy_malloc n : 0 ≤ stride → n ≤ stride → roomy 1 any (malloc n).
  Proof.
    intros H0 Hn. apply roomy_region. simpl. destruct (decide (0 ≤ n)).
    - rewrite Z2Nat.id; [|by apply Z.div_pos]. pose proof (Z.mul_div_le n 8). lia.
    - assert (n / 8 < 0) by (apply Z.div_lt_upper_bound; lia). lia.
  Qed.
  Lemma roomy_calloc_words n : 0 ≤ stride → 8 * n ≤ stride → roomy 1 any (calloc_words n).
  Proof.
    intros H0 Hn. rewrite /calloc_words. destruct (decide _); [apply roomy_region; simpl; lia|].
    intros m base Hm. destruct Hm as [? _]. lia.
  Qed.
  Lemma roomy_calloc_bytes n k : 0 ≤ stride → n * k ≤ stride → roomy 1 any (calloc_bytes n k).
  Proof.
    intros H0 Hn. rewrite /calloc_bytes. destruct (decide _); [apply roomy_region; simpl; lia|].
    intros m base Hm. destruct Hm as [? _]. lia.
  Qed.
  Lemma roomy_cmp t f a c : (∀ l x y, asks_nothing (f l x y)) → (∀ l x y m r m', f l x y m = Ok r m' → m' = m) →
    roomy 0 any (tape_cmp t f a c).
  Proof.
    intros Hf Hro. apply roomy_upd. intros m. rewrite /tape_cmp. destruct (m !! t) as [[| | |l|]|] eqn:Et; try done.
    destruct (f l a c m) as [v m'| |n|] eqn:E; try done; [|by apply Hf in E]. apply Hro in E as ->.
    split; [done|]. eexists _, _, _. split; [exact Et|]. done.
  Qed.
End roomy.

Ltac roomy_step :=
  match goal with
  | |- roomy _ _ _ (mret _) => apply roomy_ret; [lia|]
  | |- any _ => exact I
  | |- roomy _ _ _ ub => apply roomy_ub
  | |- roomy _ _ _ fuel_out => apply roomy_fuel
  | |- roomy _ 0 any (load _) => apply roomy_load
  | |- roomy _ 0 any (list_head _) => apply roomy_load
  | |- roomy _ 0 any (loadb _) => apply roomy_loadb
  | |- roomy _ 0 any (store _ _) => apply roomy_store
  | |- roomy _ 0 any (storeb _ _) => apply roomy_storeb
  | |- roomy _ 0 any (tape_push _ _) => apply roomy_push
  | |- roomy _ 0 any (tape_take _) => apply roomy_take
  | |- roomy _ 0 any (massert _) => apply roomy_massert
  | |- roomy _ 0 any (free _) => apply roomy_free
  | |- roomy _ 0 _ (_ ≫= _) => apply roomy_bind0; [done| |intros ?]
  | |- roomy _ _ _ (if ?x then _ else _) => destruct x
  | |- roomy _ _ _ (match ?x with _ => _ end) => destruct x
  | |- roomy _ _ _ (let _ := _ in _) => cbv zeta
  | H : context [roomy _ 0 any _] |- roomy _ 0 any _ => apply H
  end.
Ltac roomy_all := repeat roomy_step.

(** ** Lists and chains of a bucket *)
Section lists.
  Variable b : Z.
  Lemma roomy_insert_first l p : roomy b 0 any (list_insert_first l p).
  Proof. rewrite /list_insert_first. roomy_all. Qed.
  Lemma roomy_insert_tail_ne l p : roomy b 0 any (list_insert_tail_not_empty l p).
  Proof. rewrite /list_insert_tail_not_empty. roomy_all. Qed.
  Lemma roomy_insert_tail l p d : roomy b 0 any (list_insert_tail l p d).
  Proof. pose proof roomy_insert_first. pose proof roomy_insert_tail_ne. rewrite /list_insert_tail. roomy_all. Qed.
  Lemma roomy_remove_existing l p : roomy b 0 any (list_remove_existing l p).
  Proof. rewrite /list_remove_existing. roomy_all. Qed.
  Lemma roomy_concat l p : roomy b 0 any (list_concat l p).
  Proof. rewrite /list_concat. roomy_all. Qed.
  Lemma roomy_foreach_loop fuel node func : (∀ d, roomy b 0 any (func d)) → roomy b 0 any (list_foreach_loop fuel node func).
  Proof. intros Hf. revert node. induction fuel; intros; simpl; roomy_all. Qed.
  Lemma roomy_walk fuel i : roomy b 0 any (list_walk fuel i).
  Proof. revert i. induction fuel; intros; simpl; roomy_all. Qed.
  Lemma roomy_memset a n : roomy b 0 any (memset0 a n).
  Proof. revert a. induction n; intros; simpl; roomy_all. Qed.
  Lemma roomy_bucket_search fuel cmp arg hash i : (∀ x y, roomy b 0 any (cmp x y)) → roomy b 0 any (bucket_search fuel cmp arg hash i).
  Proof. intros Hf. revert i. induction fuel; intros; simpl; roomy_all. Qed.
  Lemma roomy_bucket_remove {R} fuel cmp arg hash i (found : Z → M R) notfound :
    (∀ x y, roomy b 0 any (cmp x y)) → (∀ p, roomy b 0 any (found p)) → roomy b 0 any notfound →
    roomy b 0 any (bucket_remove fuel cmp arg hash i found notfound).
  Proof. intros Hf H1 H2. revert i. induction fuel; intros; simpl; roomy_all. Qed.
  Lemma roomy_buckets_foreach fuel n pos ref func : (∀ p, roomy b 0 any (ref p)) → (∀ d, roomy b 0 any (func d)) →
    roomy b 0 any (buckets_foreach fuel n pos ref func).
  Proof. intros Hr Hf. revert pos. induction n; intros; simpl; roomy_all. by apply roomy_foreach_loop. Qed.
End lists.

(** ** Runs *)
Section run.
  Context {op out cst sst : Type}.
  Variables (step : cst → op → M (cst * out)) (pre : sst → op → Prop) (post : sst → op → out → sst → Prop).
  Variables (stride : Z) (cost : op → Z).
  Hypothesis cost_pos : ∀ o, 0 ≤ cost o.

  Lemma run_room (J : sst → Prop) c : (∀ s o a s', J s → pre s o → post s o a s' → J s') →
    ∀ cs m base n n', room base stride m → costs cost n c → base + stride * n < 2 ^ 64 →
    (∀ d cs1 tr m1 o, run step cs (trunc d c) m = Ok (cs1, tr) m1 →
      (∀ s s1, allowed pre post s c → correct post s tr s1 → pre s1 o ∧ (J s → J s1)) →
      roomy stride (cost o) any (step cs1 o)) →
    run step cs c m ≠ Env n'.
  Proof using cost_pos.
    intros HJ. induction c as [|o k IH]; intros cs m base n n' Hm Hc Hb Hst; simpl; [done|].
    destruct Hc as [Hco Hc]. pose proof (cost_pos o). pose proof Hm as (Hb0 & _ & Hs0 & _).
    assert (Ho : roomy stride (cost o) any (step cs o)).
    { eapply (Hst 0%nat); [done|]. intros s s1 [Hp _] Hcr. inversion Hcr; subst. done. }
    specialize (Ho m base Hm). rewrite /mbind /M_bind. destruct (step cs o m) as [x m1| |n1|] eqn:Es; [| done| |done].
    - destruct Ho as (_ & j & Hj & Hm1).
      assert (stride * j ≤ stride * cost o) by (apply Z.mul_le_mono_nonneg_l; lia).
      assert (Hne : ∀ n', run step x.1 (k x.2) m1 ≠ Env n').
      { intros n2. eapply (IH x.2 x.1 m1 _ (n - cost o)); [exact Hm1|apply Hc|lia|].
        intros d cs1 tr m2 o1 Hr Hall. eapply (Hst (S d) cs1 ((o, x.2) :: tr) m2).
        - simpl. rewrite /mbind /M_bind Es Hr. done.
        - intros s s1 [Ho' Ha] Hcr. inversion Hcr as [|? ? ? s' ? ? Hpost Hcr']; subst.
          destruct (Hall s' s1) as [? ?]; [by apply Ha|done|]. split; [done|]. eauto. }
      destruct (run step x.1 (k x.2) m1) as [y m2| |n2|] eqn:E; try done.
    - assert (stride * cost o ≤ stride * n) by (apply Z.mul_le_mono_nonneg_l; lia). lia.
  Qed.
  Lemma run_room_every (I : cst → Prop) (P : op → Prop) c :
    (∀ cs o, I cs → P o → roomy stride (cost o) (λ r, I r.1) (step cs o)) → every P c →
    ∀ cs m base n n', I cs → room base stride m → costs cost n c → base + stride * n < 2 ^ 64 → run step cs c m ≠ Env n'.
  Proof using cost_pos.
    intros Hst. induction c as [|o k IH]; intros Hev cs m base n n' Hi Hm Hc Hb; simpl in *; [done|].
    destruct Hev as [Hp Hev], Hc as [Hco Hc]. pose proof (cost_pos o). pose proof Hm as (Hb0 & _ & Hs0 & _).
    pose proof (Hst cs o Hi Hp m _ Hm) as Ho.
    rewrite /mbind /M_bind. destruct (step cs o m) as [x m1| |n1|] eqn:Es; [| done| |done].
    - destruct Ho as (Hi1 & j & Hj & Hm1).
      assert (stride * j ≤ stride * cost o) by (apply Z.mul_le_mono_nonneg_l; lia).
      pose proof (IH x.2 (Hev _) x.1 m1 (base + stride * j) (n - cost o)) as Hne.
      destruct (run step x.1 (k x.2) m1) as [y m2| |n2|] eqn:E; try done.
      destruct (Hne n2 Hi1 Hm1 (Hc _)); [lia|done].
    - assert (stride * cost o ≤ stride * n) by (apply Z.mul_le_mono_nonneg_l; lia). lia.
  Qed.
End run.

(** ** The hashtables *)
Section table.
  Variables (T : table) (inv : tb_st T → nat → Prop) (bound : Z → Z → Z).
  Hypothesis hist : ∀ om K t live m fuel c,
    table_start om K t live m → (size om ≤ fuel)%nat → allowed (tpre om K) tpost (tstate0 om live) c →
    safe (run (tstep T fuel t) None c m) (λ r m',
      table_end T inv om live r.1 r.2 m' ∧ unchanged_outside (HCTL :: t :: objs_cells om) m m').
  Hypothesis Hinit : ∀ b s N n, bound s (Z.of_nat N) ≤ b → 0 ≤ n ≤ 2 ^ 60 → n ≤ s → roomy b 1 any (tb_init T n).
  Hypothesis Hins : ∀ b s N fuel st n p d h, bound s (Z.of_nat N) ≤ b → inv st n → (S n ≤ N)%nat →
    roomy b 1 any (tb_insert T fuel st p d h).
  Hypothesis Hrem : ∀ b s N fuel st n cmp arg h, bound s (Z.of_nat N) ≤ b → inv st n → (n ≤ N)%nat →
    (∀ x y, roomy b 0 any (cmp x y)) → roomy b 1 any (tb_remove T fuel st cmp arg h).
  Hypothesis Hrex : ∀ b s N fuel st n p, bound s (Z.of_nat N) ≤ b → inv st n → (n ≤ N)%nat →
    roomy b 1 any (tb_remove_existing T fuel st p).
  Hypothesis Hsearch : ∀ b fuel st cmp arg h, (∀ x y, roomy b 0 any (cmp x y)) → roomy b 0 any (tb_search T fuel st cmp arg h).
  Hypothesis Hbucket : ∀ b st h, roomy b 0 any (tb_bucket T st h).
  Hypothesis Hforeach : ∀ b fuel st func, (∀ d, roomy b 0 any (func d)) → roomy b 0 any (tb_foreach T fuel st func).
  Hypothesis Hforeach_arg : ∀ b fuel st func arg, (∀ x d, roomy b 0 any (func x d)) → roomy b 0 any (tb_foreach_arg T fuel st func arg).
  Hypothesis Hdone : ∀ b st, roomy b 0 any (tb_done T st).

  Lemma table_roomy : table_completes T bound.
  Proof using All.
    intros om K t live m fuel size' c base stride n Hs Hf Ha Hroom Hb Hcost Hsp.
    assert (Hpre : ∀ s o, troom size' om K s o → tpre om K s o) by by intros s o [[? _] _].
    pose proof (hist om K t live m fuel _ Hs Hf (allowed_mono _ _ _ _ _ Hpre Ha)) as Hh.
    destruct (run (tstep T fuel t) None c m) as [r m'| |n'|] eqn:Er; [by eauto|done| |done]. exfalso. clear Hh.
    eapply (run_room (tstep T fuel t) (troom size' om K) tpost stride tcost ltac:(by intros [])
      (λ s, (size (ts_free s) + tlen (ts_tab s) ≤ size om)%nat) c
      ltac:(intros s o a s' HJ Hp Hq; destruct Hp as [Hp _]; pose proof (tpost_count _ _ _ _ _ _ _ Hp Hq); cbv beta in *; lia));
      [exact Hroom|exact Hcost|exact Hsp| |exact Er].
    intros d cs1 tr m1 o Hr1 Hp.
    assert (Ha' : allowed (tpre om K) tpost (tstate0 om live) (trunc d c)).
    { apply trunc_allowed. by eapply allowed_mono. }
    pose proof (hist om K t live m fuel _ Hs Hf Ha') as Hh. rewrite Hr1 in Hh. simpl in Hh.
    destruct Hh as [(s' & int & Hc & _ & _ & Hend) _].
    destruct (Hp _ _ Ha Hc) as [[[Hpre' Hq] Hro] HJ]. specialize (HJ ltac:(simpl; rewrite size_dom Nat.add_0_r; done)).
    assert (Hcmp : ∀ f, (∀ a b, asks_nothing (f a b)) → (∀ a b m r m', f a b m = Ok r m' → m' = m) →
      ∀ x y, roomy stride 0 any (tape_cmp t (λ _, f) x y)).
    { intros f Hn Hro' x y. apply roomy_cmp; [intros _; apply Hn|intros _; apply Hro']. }
    assert (Hv : ∀ d, roomy stride 0 any (visit t d)) by (intros; rewrite /visit; roomy_all).
    assert (Hva : ∀ a d, roomy stride 0 any (visit_arg t a d)) by (intros; rewrite /visit_arg; roomy_all).
    assert (Hvf : ∀ d, roomy stride 0 any (visit_free t d)) by (intros; rewrite /visit_free; roomy_all).
    assert (Hw := roomy_walk stride).
    destruct o as [k|p dd h|f g arg h|p|f g arg h|h| | |arg| |]; simpl.
    { eapply (roomy_bind1 _ _ any); [|intros; roomy_all]. destruct Hpre'. by eapply Hinit. }
    all: destruct cs1 as [st|]; [|by apply roomy_ub].
    - destruct Hpre' as (Hin & (es & He) & _). rewrite He in Hend. destruct Hend as (st' & [= <-] & Hi & _).
      apply (roomy_bind1 _ _ any); [|intros; roomy_all]. eapply Hins; [exact Hb|exact Hi|]. rewrite He /= in HJ.
      assert (1 ≤ size (ts_free s'))%nat; [|lia]. rewrite -(size_singleton (C:=gset Z) p). apply subseteq_size. set_solver.
    - destruct Hpre' as ((es & He & _) & _). rewrite He in Hend. destruct Hend as (st' & [= <-] & Hi & _).
      apply (roomy_bind1 _ _ any); [|intros; roomy_all]. eapply Hrem; [exact Hb|exact Hi| |by apply Hcmp]. rewrite He /= in HJ. lia.
    - destruct Hpre' as (es & He & _). rewrite He in Hend. destruct Hend as (st' & [= <-] & Hi & _).
      apply (roomy_bind1 _ _ any); [|intros; roomy_all]. eapply Hrex; [exact Hb|exact Hi|]. rewrite He /= in HJ. lia.
    - apply (roomy_bind1 _ _ any); [|intros; roomy_all]. apply Hsearch. by apply Hcmp.
    - apply (roomy_bind1 _ _ any); [apply Hbucket|intros]. roomy_all.
    - roomy_all.
    - apply (roomy_bind1 _ _ any); [|intros; roomy_all]. by apply Hforeach.
    - apply (roomy_bind1 _ _ any); [|intros; roomy_all]. by apply Hforeach_arg.
    - apply (roomy_bind1 _ _ any); [|intros; roomy_all]. by apply Hforeach.
    - apply (roomy_bind1 _ _ any); [apply Hdone|intros; roomy_all].
  Qed.
End table.

Lemma roomy_le {A} b k k' (Q : A → Prop) c : roomy b k Q c → k ≤ k' → roomy b k' Q c.
Proof. intros H ?. by eapply roomy_mono. Qed.
Lemma roomy_01 {A} b (c : M A) : roomy b 0 any c → roomy b 1 any c.
Proof. intros H. by eapply roomy_le. Qed.
Lemma roomy_bind01 {A B} b k (Q : B → Prop) (c : M A) f :
  roomy b 0 any c → 0 ≤ k → (∀ v, roomy b k Q (f v)) → roomy b k Q (c ≫= f).
Proof. intros. by apply roomy_bind0. Qed.
Lemma roomy_remove_loop {R} b k fuel cmp arg hash i (found : Z → M R) notfound : 0 ≤ k →
  (∀ x y, roomy b 0 any (cmp x y)) → (∀ p, roomy b k any (found p)) → roomy b k any notfound →
  roomy b k any (bucket_remove fuel cmp arg hash i found notfound).
Proof.
  intros Hk Hf H1 H2. revert i. induction fuel; intros; simpl; repeat first
    [ apply roomy_ub | apply roomy_fuel | done | apply H1 | apply IHfuel
    | apply roomy_bind0; [done|by roomy_all|intros ?]
    | match goal with |- roomy _ _ _ (if ?x then _ else _) => destruct x end
    | cbv zeta ].
Qed.

Lemma hashtable_completes : table_completes hashtable_table (λ size _, Z.max 128 (16 * size)).
Proof.
  apply (table_roomy hashtable_table hashtable_inv _ hashtable_history); simpl.
  - intros b s _ n Hb H0 Hn. rewrite /hashtable_init. apply (roomy_bind1 _ _ any); [|intros; roomy_all; apply roomy_memset].
    assert (Hbm : 0 ≤ (if decide (n < 16) then 16 else roundup_pow2 n) * 8 ≤ Z.max 128 (16 * s)).
    { case_decide; [lia|]. destruct (roundup_pow2_u64_ok n) as (k & Hk & He & Hle & Hmin); [lia|].
      change (roundup_pow2 n) with (roundup_pow2_u64 n). rewrite He.
      assert (2 ^ k = 2 * 2 ^ (k - 1)) as Hkk.
      { destruct (decide (k = 0)) as [->|]; [change (2 ^ 0) with 1 in *; lia|]. rewrite -Z.pow_succ_r; [f_equal|]; lia. }
      destruct (decide (n ≤ 2 ^ (k - 1))) as [Hc|]; [|lia]. destruct (decide (k = 0)) as [->|]; [change (2 ^ 0) with 1 in *; lia|].
      specialize (Hmin (k - 1) ltac:(lia) Hc). lia. }
    apply roomy_malloc; [lia|]. etrans; [apply wrap_le|]; lia.
  - intros. apply roomy_01. rewrite /hashtable_insert. pose proof roomy_insert_tail. roomy_all.
  - intros. apply roomy_01. rewrite /hashtable_remove. roomy_all. apply roomy_bucket_remove; [done| |by apply roomy_ret].
    intros p. pose proof roomy_remove_existing. roomy_all.
  - intros. apply roomy_01. rewrite /hashtable_remove_existing. pose proof roomy_remove_existing. roomy_all.
  - intros. rewrite /hashtable_search /hashtable_bucket. roomy_all. by apply roomy_bucket_search.
  - intros. rewrite /hashtable_bucket. roomy_all.
  - intros. rewrite /hashtable_foreach. apply roomy_buckets_foreach; [|done]. intros. roomy_all.
  - intros. rewrite /hashtable_foreach_arg. apply roomy_buckets_foreach; [|done]. intros. roomy_all.
  - intros. rewrite /hashtable_done. roomy_all.
Qed.

Lemma roomy_hd_reinsert b fuel nb mask j : roomy b 0 any (hashdyn_reinsert fuel nb mask j).
Proof. pose proof roomy_insert_tail_ne. pose proof roomy_insert_first. revert j. induction fuel; intros; simpl; roomy_all. Qed.
Lemma roomy_hd_grow_loop b fuel n bk bm nb mask i : roomy b 0 any (hashdyn_grow_loop fuel n bk bm nb mask i).
Proof. pose proof roomy_hd_reinsert. revert i. induction n; intros; simpl; roomy_all. Qed.
Lemma roomy_hd_shrink_loop b n bk nb bm i : roomy b 0 any (hashdyn_shrink_loop n bk nb bm i).
Proof. pose proof roomy_concat. revert i. induction n; intros; simpl; roomy_all. Qed.
Lemma roomy_hd_resize b fuel t k : 0 ≤ b → (k < 64 → wrap (shl64 1 k * 8) ≤ b) → roomy b 1 any (hashdyn_resize fuel t k).
Proof.
  intros H0 Hb. pose proof roomy_hd_grow_loop. pose proof roomy_hd_shrink_loop. rewrite /hashdyn_resize.
  case_decide; [apply roomy_ub|]. cbv zeta. apply (roomy_bind1 _ _ any); [apply roomy_malloc; [done|apply Hb; lia]|intros; roomy_all].
Qed.
Lemma hashdyn_completes : table_completes hashdyn_table (λ _ objects, Z.max 128 (32 * objects)).
Proof.
  assert (Hsh : ∀ b N fuel st n, Z.max 128 (32 * Z.of_nat N) ≤ b → hashdyn_inv st n → (n ≤ N)%nat →
    roomy b 1 any (hashdyn_shrink_step fuel (hd_set_count st (sub64 (hd_count st) 1)))).
  { intros b N fuel st n HbN ((k & Hk & Hm & Hb) & _ & _ & _ & Hl & Hc) Hn. rewrite /hashdyn_shrink_step /=. case_decide as Hd; [|roomy_all].
    rewrite Hb /HASHDYN_BIT in Hd |- *. destruct Hd as [_ Hk4].
    apply roomy_hd_resize; [lia|]. intros _. etrans; [apply wrap_shift_le; lia|].
    assert (2 ^ k = 2 * 2 ^ (k - 1)) as H2. { rewrite -Z.pow_succ_r; [f_equal|]; lia. }
    destruct Hl as [Hl|Hl]; [|lia].
    assert (2 ^ 4 < 2 ^ k) by (apply Z.pow_lt_mono_r; lia). change (2 ^ 4) with 16 in *. lia. }
  apply (table_roomy hashdyn_table hashdyn_inv _ hashdyn_history); simpl.
  - intros b _ N _ Hb _ _. rewrite /hashdyn_init. apply (roomy_bind1 _ _ any); [|intros; roomy_all].
    apply roomy_calloc_words; [lia|]. change (8 * shl64 1 HASHDYN_BIT) with 128. lia.
  - intros b _ N fuel st n p d h HbN ((k & Hk & Hm & Hb) & _ & _ & H2 & Hl & Hc) Hn. rewrite /hashdyn_insert.
    pose proof roomy_insert_tail. repeat (apply roomy_bind0; [done|by roomy_all|intros ?]). cbv zeta.
    rewrite /hashdyn_grow_step /=. case_decide as Hd; [|roomy_all].
    apply roomy_hd_resize; [lia|]. intros _. etrans; [apply wrap_shift_le; lia|].
    rewrite Hb Z.pow_add_r; [|lia..]. rewrite Hm Hc /wrap in Hd. rewrite Hm in H2.
    assert (2 ^ k = 2 * 2 ^ (k - 1)) as Hkk. { rewrite -Z.pow_succ_r; [f_equal|]; lia. }
    assert (2 ^ k ≤ 2 ^ 60) by (apply Z.pow_le_mono_r; lia).
    rewrite Z.mod_small in Hd; [|lia]. rewrite Hkk Z.mul_comm Z.div_mul in Hd; [|lia]. lia.
  - intros b _ N fuel st n cmp arg h HbN Hi Hn Hcmp. rewrite /hashdyn_remove.
    repeat (apply roomy_bind0; [done|by roomy_all|intros ?]). apply roomy_remove_loop; [done|done| |by apply roomy_ret].
    intros p. pose proof roomy_remove_existing. specialize (Hsh b N fuel st n HbN Hi Hn).
    repeat (apply roomy_bind0; [done|by roomy_all|intros ?]). apply (roomy_bind1 _ _ any); [exact Hsh|intros; roomy_all].
  - intros b _ N fuel st n p HbN Hi Hn. rewrite /hashdyn_remove_existing. pose proof roomy_remove_existing.
    specialize (Hsh b N fuel st n HbN Hi Hn).
    repeat (apply roomy_bind0; [done|by roomy_all|intros ?]). apply (roomy_bind1 _ _ any); [exact Hsh|intros; roomy_all].
  - intros. rewrite /hashdyn_search /hashdyn_bucket. roomy_all. by apply roomy_bucket_search.
  - intros. rewrite /hashdyn_bucket. roomy_all.
  - intros. rewrite /hashdyn_foreach. apply roomy_buckets_foreach; [|done]. intros. roomy_all.
  - intros. rewrite /hashdyn_foreach_arg. apply roomy_buckets_foreach; [|done]. intros. roomy_all.
  - intros. rewrite /hashdyn_done. roomy_all.
Qed.

Lemma roomy_hl_get b t i : roomy b 0 any (hl_get t i).
Proof. rewrite /hl_get. roomy_all. Qed.
Lemma roomy_hl_set b t i p : roomy b 0 any (hl_set t i p).
Proof. rewrite /hl_set. roomy_all. Qed.
Lemma roomy_hl_set_bit b t i : roomy b 0 any (hl_set_bit t i).
Proof. rewrite /hl_set_bit. roomy_all. Qed.
Lemma roomy_ilog2 b x : roomy b 0 any (ilog2 x).
Proof. rewrite /ilog2. roomy_all. Qed.
Lemma roomy_hl_pos b t p : roomy b 0 any (hashlin_pos t p).
Proof. pose proof roomy_ilog2. pose proof roomy_hl_get. rewrite /hashlin_pos. roomy_all. Qed.
Lemma roomy_hl_ref b t h : roomy b 0 any (hashlin_bucket_ref t h).
Proof. apply roomy_hl_pos. Qed.
Lemma roomy_hl_flush b fuel s0 s1 mask j : roomy b 0 any (hashlin_flush fuel s0 s1 mask j).
Proof. pose proof roomy_insert_tail_ne. pose proof roomy_insert_first. revert j. induction fuel; intros; simpl; roomy_all. Qed.
Lemma roomy_hl_grow_loop b fuel n t x : roomy b 0 any (hashlin_grow_loop fuel n t x).
Proof. pose proof roomy_hl_pos. pose proof roomy_hl_flush. revert t. induction n; intros; simpl; roomy_all. Qed.
Lemma roomy_hl_shrink_loop b n t x : roomy b 0 any (hashlin_shrink_loop n t x).
Proof.
  pose proof roomy_hl_pos. pose proof roomy_concat. pose proof roomy_hl_get. pose proof roomy_hl_set_bit.
  revert t. induction n; intros; simpl; roomy_all.
Qed.
Lemma roomy_hl_done_loop b n t i : roomy b 0 any (hashlin_done_loop n t i).
Proof. pose proof roomy_hl_get. revert i. induction n; intros; simpl; roomy_all. Qed.
Lemma roomy_hl_shrink b t : roomy b 0 any (hashlin_shrink_step t).
Proof. rewrite /hashlin_shrink_step. cbv zeta. case_decide; [apply roomy_hl_shrink_loop|roomy_all]. Qed.

Lemma hashlin_completes : table_completes hashlin_table (λ _ objects, Z.max 512 (16 * objects)).
Proof.
  apply (table_roomy hashlin_table hashlin_inv _ hashlin_history); simpl.
  - intros b _ N _ Hb _ _. rewrite /hashlin_init. apply (roomy_bind1 _ _ any); [|intros; roomy_all].
    apply roomy_calloc_words; [lia|]. change (8 * shl64 1 HASHLIN_BIT) with 512. lia.
  - intros b _ N fuel st n p d h HbN (Hc & (k & Hk & Hm & Hb) & _ & _ & Hst) Hn. rewrite /hashlin_insert.
    pose proof roomy_insert_tail. pose proof roomy_hl_ref. repeat (apply roomy_bind0; [done|by roomy_all|intros ?]). cbv zeta.
    rewrite /hashlin_grow_step. apply (roomy_bind1 _ _ any); [|intros; case_decide; [apply roomy_hl_grow_loop|roomy_all]].
    simpl. rewrite Hc Hm. case_decide as Hd; [|roomy_all]. destruct Hd as [_ Hd].
    apply (roomy_bind1 _ _ any); [|intros; roomy_all]. case_decide; [|roomy_all].
    apply (roomy_bind1 _ _ any); [|intros; pose proof roomy_hl_set; pose proof roomy_hl_set_bit; roomy_all].
    assert (2 ^ k = 2 * 2 ^ (k - 1)) as Hkk. { rewrite -Z.pow_succ_r; [f_equal|]; lia. }
    pose proof (Z.pow_pos_nonneg 2 (k - 1) ltac:(lia) ltac:(lia)).
    apply roomy_malloc; [lia|]. etrans; [apply wrap_le; lia|].
    rewrite Hkk Z.mul_comm Z.div_mul in Hd; [|lia]. pose proof (wrap_le (Z.of_nat n + 1) ltac:(lia)). lia.
  - intros b _ N fuel st n cmp arg h _ _ _ Hcmp. apply roomy_01. rewrite /hashlin_remove. pose proof roomy_hl_ref. roomy_all.
    apply roomy_bucket_remove; [done| |by apply roomy_ret].
    intros p. pose proof roomy_remove_existing. pose proof roomy_hl_shrink. roomy_all.
  - intros b _ N fuel st n p _ _ _. apply roomy_01. rewrite /hashlin_remove_existing.
    pose proof roomy_hl_ref. pose proof roomy_remove_existing. pose proof roomy_hl_shrink. roomy_all.
  - intros. rewrite /hashlin_search /hashlin_bucket. pose proof roomy_hl_ref. roomy_all. by apply roomy_bucket_search.
  - intros. rewrite /hashlin_bucket. pose proof roomy_hl_ref. roomy_all.
  - intros. rewrite /hashlin_foreach. apply roomy_buckets_foreach; [|done]. intros. apply roomy_hl_pos.
  - intros. rewrite /hashlin_foreach_arg. apply roomy_buckets_foreach; [|done]. intros. apply roomy_hl_pos.
  - intros. rewrite /hashlin_done. pose proof roomy_hl_get. pose proof roomy_hl_done_loop. roomy_all.
Qed.

(** ** The arrays *)
Section arrays.
  Variables (T : arrays) (inv : ay_st T → Z → Z → Prop) (bound : Z → Z → Z) (blocks : Z → Z).
  Hypothesis blocks_pos : ∀ n, 0 ≤ n → 0 ≤ blocks n.
  Hypothesis hist : ∀ `{!memG}, memG_env → array_proof T inv.
  Hypothesis Hinit : ∀ b sz by' k, bound sz by' ≤ b → 1 ≤ k → k ≤ by' → roomy b 1 any (ay_init T k).
  Hypothesis Hgrow : ∀ b sz by' st n k c, bound sz by' ≤ b → inv st n k → 0 ≤ n → 0 ≤ k ≤ by' → 0 ≤ c ≤ sz →
    roomy b (64 + blocks c) any (ay_grow T st c).
  Hypothesis Hins : ∀ b sz by' st n k v, bound sz by' ≤ b → inv st n k → 0 ≤ n < sz →
    roomy b (64 + blocks 1) any (ay_insert T st v).
  Hypothesis Href : ∀ b st i, roomy b 0 any (ay_ref T st i).
  Hypothesis Hset : ∀ b st i v, roomy b 0 any (ay_set T st i v).
  Hypothesis Hget : ∀ b st i, roomy b 0 any (ay_get T st i).
  Hypothesis Hdone : ∀ b st, roomy b 0 any (ay_done T st).

  Lemma array_roomy : array_completes T bound (λ n, blocks (Z.max 0 n)).
  Proof using All.
    intros live m sz by' c base stride n Hl Ha Hroom Hb Hcost Hsp.
    assert (Hpre : ∀ s o, arequest T sz by' s o → apre T s o) by by intros s o [? _].
    pose proof (array_history T inv live m _ (@hist) Hl (allowed_mono _ _ _ _ _ Hpre Ha)) as Hh.
    destruct (run (astep T) None c m) as [r m'| |n'|] eqn:Er; [by eauto|done| |done]. exfalso. clear Hh.
    eapply (run_room (astep T) (arequest T sz by') (apost T) stride (acost (λ n, blocks (Z.max 0 n)))
      ltac:(intros []; simpl; try done; match goal with |- context [blocks ?x] => pose proof (blocks_pos x ltac:(lia)); lia end)
      (λ s, ∀ k es, as_arr s = Some (k, es) → Z.of_nat k ≤ by') c
      ltac:(intros s o a s' HJ Hp Hq; cbv beta in *; by eapply apost_bytes));
      [exact Hroom|exact Hcost|exact Hsp| |exact Er].
    intros d cs1 tr m1 o Hr1 Hp.
    assert (Ha' : allowed (apre T) (apost T) (astate0 live) (trunc d c)).
    { apply trunc_allowed. by eapply allowed_mono. }
    pose proof (array_history T inv live m _ (@hist) Hl Ha') as Hh. rewrite Hr1 in Hh. simpl in Hh.
    destruct Hh as [(s' & Hc & _ & _ & Hend) _].
    destruct (Hp _ _ Ha Hc) as [[Hpre' Hq] HJ]. specialize (HJ ltac:(done)).
    destruct o as [k|k| | |i|i v|i|v|p|p v|]; simpl.
    { apply (roomy_bind1 _ _ any); [|intros; roomy_all]. destruct Hpre'. eapply Hinit; [exact Hb|lia|done]. }
    all: destruct cs1 as [st|]; [|by apply roomy_ub].
    - destruct Hpre' as [[[k' es] He] Hk]. rewrite He in Hend. destruct Hend as ((st' & [= <-] & Hi) & _).
      rewrite Z.max_r; [|lia].
      apply (roomy_bind1 _ _ any); [|intros; roomy_all]. eapply Hgrow; [exact Hb|exact Hi|lia| |lia]. specialize (HJ _ _ He). lia.
    - roomy_all.
    - roomy_all.
    - roomy_all.
    - apply (roomy_bind1 _ _ any); [apply Hset|intros; roomy_all].
    - roomy_all.
    - destruct Hpre' as [_ [[k' es] He]]. rewrite He in Hend. destruct Hend as ((st' & [= <-] & Hi) & _).
      apply (roomy_bind1 _ _ any); [|intros; roomy_all]. eapply Hins; [exact Hb|exact Hi|]. specialize (Hq _ _ He). lia.
    - roomy_all.
    - roomy_all.
    - apply (roomy_bind1 _ _ any); [apply Hdone|intros; roomy_all].
  Qed.
End arrays.

Lemma roomy_seg_get b l i : roomy b 0 any (seg_get l i).
Proof. rewrite /seg_get. roomy_all. Qed.
Lemma roomy_seg_set b l i p : roomy b 0 any (seg_set l i p).
Proof. rewrite /seg_set. roomy_all. Qed.
Lemma roomy_size_shift b i : roomy b 0 any (size_shift i).
Proof. rewrite /size_shift. roomy_all. Qed.
Lemma roomy_ptrdiff_shift b i : roomy b 0 any (ptrdiff_shift i).
Proof. rewrite /ptrdiff_shift. roomy_all. Qed.
Lemma roomy_to_ptrdiff b i : roomy b 0 any (to_ptrdiff i).
Proof. rewrite /to_ptrdiff. roomy_all. Qed.
Ltac roomy_seg :=
  pose proof roomy_seg_get; pose proof roomy_seg_set; pose proof roomy_size_shift; pose proof roomy_ptrdiff_shift;
  pose proof roomy_to_ptrdiff; pose proof roomy_ilog2.
Lemma roomy_size_shift_6 b : roomy b 0 (λ v, v = 64) (size_shift 6).
Proof. intros m base Hm. split; [done|]. exists 0. split; [done|]. by apply room_0. Qed.
Lemma roomy_array_init b : 512 ≤ b → roomy b 1 any array_init.
Proof.
  intros. rewrite /array_init. apply (roomy_bind _ 0 1 (λ v, v = 64)); [apply roomy_size_shift_6| |done]. intros ? ->.
  apply (roomy_bind1 _ _ any); [apply roomy_calloc_words; lia|intros; roomy_all].
Qed.
Lemma roomy_array_grow b t c : 0 ≤ b → 8 * c ≤ b → roomy b 64 any (array_grow t c).
Proof.
  intros H0 Hc. rewrite /array_grow. case_decide; [roomy_all|].
  generalize (Array (ar_bucket t) (ar_bucket_max t) c (ar_bucket_bit t)). change 64 with (Z.of_nat 64). generalize 64%nat. roomy_seg.
  intros n. induction n as [|n IH]; intros t'; cbn [array_grow_loop]; case_decide; try by roomy_all.
  replace (Z.of_nat (S n)) with (1 + Z.of_nat n) by lia. apply (roomy_bind _ _ _ any); [apply roomy_calloc_words; lia| |lia].
  intros ? _. repeat (apply roomy_bind0; [lia|by roomy_all|intros ?]). apply IH.
Qed.
Lemma roomy_array_ref b t i : roomy b 0 any (array_ref t i).
Proof. roomy_seg. rewrite /array_ref. roomy_all. Qed.
Lemma roomy_array_set b t i v : roomy b 0 any (array_set t i v).
Proof. pose proof roomy_array_ref. rewrite /array_set. roomy_all. Qed.
Lemma roomy_array_get b t i : roomy b 0 any (array_get t i).
Proof. pose proof roomy_array_ref. rewrite /array_get. roomy_all. Qed.
Lemma roomy_array_done b t : roomy b 0 any (array_done t).
Proof.
  roomy_seg. rewrite /array_done. roomy_all. generalize (Z.to_nat (ar_bucket_bit t - ARRAY_BIT)).
  intros n. generalize ARRAY_BIT. induction n; intros; simpl; roomy_all.
Qed.

Lemma array_completes_ok : array_completes array_a (λ size _, Z.max 512 (8 * size)) (λ _, 0).
Proof.
  apply (array_roomy array_a array_inv _ (λ _, 0)); simpl.
  - done.
  - intros. by apply array_ok.
  - intros. apply roomy_array_init. lia.
  - intros. apply roomy_array_grow; lia.
  - intros b sz by' st n k v Hb Hi Hn. destruct Hi as [Hc _]. rewrite /array_insert Hc.
    pose proof (add64_le n 1 ltac:(lia)). pose proof roomy_array_set.
    apply (roomy_bind1 _ _ any); [apply roomy_array_grow; lia|intros; roomy_all].
  - intros. apply roomy_array_ref.
  - intros. apply roomy_array_set.
  - intros. apply roomy_array_get.
  - intros. apply roomy_array_done.
Qed.

Lemma arrayof_completes_ok : array_completes arrayof_a (λ size bytes, Z.max (64 * bytes) (bytes * size)) (λ _, 0).
Proof.
  apply (array_roomy arrayof_a arrayof_inv _ (λ _, 0)); simpl.
  - done.
  - intros. by apply arrayof_ok.
  - intros. rewrite /arrayof_init. apply (roomy_bind _ 0 1 (λ v, v = 64)); [apply roomy_size_shift_6| |done]. intros ? ->.
    apply (roomy_bind1 _ _ any); [apply roomy_calloc_bytes; lia|intros; roomy_all].
  - intros b sz by' st n k c Hb Hi Hn Hk Hc. destruct Hi as (_ & He & _). rewrite /arrayof_grow. case_decide; [roomy_all|].
    assert (Hes : ao_element_size (ArrayOf (ao_bucket st) (ao_element_size st) (ao_bucket_max st) c (ao_bucket_bit st)) = k) by done.
    revert Hes. generalize (ArrayOf (ao_bucket st) (ao_element_size st) (ao_bucket_max st) c (ao_bucket_bit st)).
    change (64 + 0) with (Z.of_nat 64). generalize 64%nat. roomy_seg.
    intros f. induction f as [|f IH]; intros t' Hes; cbn [arrayof_grow_loop]; case_decide; try by roomy_all.
    replace (Z.of_nat (S f)) with (1 + Z.of_nat f) by lia. apply (roomy_bind _ _ _ any); [| |lia].
    { assert (0 ≤ by' * sz) by (apply Z.mul_nonneg_nonneg; lia).
      assert (ao_bucket_max t' * k ≤ by' * sz).
      { etrans; [apply (Z.mul_le_mono_nonneg_r _ c); lia|]. rewrite Z.mul_comm. apply Z.mul_le_mono_nonneg; lia. }
      rewrite Hes. apply roomy_calloc_bytes; lia. }
    intros ? _. repeat (apply roomy_bind0; [lia|by roomy_all|intros ?]). by apply IH.
  - intros. apply roomy_ub.
  - intros. rewrite /arrayof_ref. roomy_seg. roomy_all.
  - intros. apply roomy_ub.
  - intros. apply roomy_ub.
  - intros b t. roomy_seg. rewrite /arrayof_done. roomy_all. generalize (Z.to_nat (ao_bucket_bit t - ARRAYOF_BIT)).
    intros n. generalize ARRAYOF_BIT. induction n; intros; simpl; roomy_all.
Qed.

Lemma roomy_blocks_free b n t i : roomy b 0 any (blocks_free n t i).
Proof. pose proof roomy_array_get. revert i. induction n; intros; simpl; roomy_all. Qed.
Lemma roomy_arrayblk_ref b t i : roomy b 0 any (arrayblk_ref t i).
Proof. pose proof roomy_array_get. rewrite /arrayblk_ref. roomy_all. Qed.
Lemma roomy_arrayblk_set b t i v : roomy b 0 any (arrayblk_set t i v).
Proof. pose proof roomy_arrayblk_ref. rewrite /arrayblk_set. roomy_all. Qed.
Lemma roomy_arrayblk_grow b t c sz k : 0 ≤ c → c ≤ sz → Z.max 32768 (8 * ((sz + 4095) / 4096)) ≤ b → 0 ≤ k →
  (c + 4095) / 4096 - array_size (ab_block t) ≤ k → roomy b (64 + k) any (arrayblk_grow t c).
Proof.
  intros H0 Hc Hb Hk0 Hk. pose proof (block_max_le c sz H0 Hc). pose proof (block_max_le c c H0 ltac:(lia)).
  rewrite /arrayblk_grow. case_decide; [roomy_all|]. cbv zeta.
  change ARRAYBLK_SIZE with 4096. case_decide; [|roomy_all].
  apply (roomy_bind _ _ _ any); [apply roomy_array_grow; lia| |lia]. intros blk _. apply (roomy_bind1 _ _ any); [|intros; roomy_all].
  apply (roomy_le _ (Z.of_nat (Z.to_nat (sub64 (add64 c 4096) 1 / 4096 - array_size (ab_block t))))); [|lia].
  generalize (Z.to_nat (sub64 (add64 c 4096) 1 / 4096 - array_size (ab_block t))).
  intros n. generalize (array_size (ab_block t)). pose proof roomy_array_set. induction n as [|n IH]; intros i; cbn [arrayblk_alloc]; [by roomy_all|].
  replace (Z.of_nat (S n)) with (1 + Z.of_nat n) by lia. apply (roomy_bind _ _ _ any); [| |lia].
  { apply roomy_calloc_words; [lia|]. change (8 * ARRAYBLK_SIZE) with 32768. lia. }
  intros ? _. repeat (apply roomy_bind0; [lia|by roomy_all|intros ?]). apply IH.
Qed.
Lemma blocks_nonneg n : 0 ≤ n → 0 ≤ (n + 4095) / 4096.
Proof. intros. apply Z.div_pos; lia. Qed.
Lemma blocks_next n blk : n ≤ 4096 * blk → (n + 1 + 4095) / 4096 ≤ blk + 1.
Proof. intros. assert ((n + 1 + 4095) / 4096 < blk + 2); [|lia]. apply Z.div_lt_upper_bound; lia. Qed.
Definition blocks (n : Z) : Z := (n + 4095) / 4096.
Lemma arrayblk_completes_ok : array_completes arrayblk_a (λ size _, Z.max 32768 (8 * ((size + 4095) / 4096))) (λ n, blocks (Z.max 0 n)).
Proof.
  apply (array_roomy arrayblk_a arrayblk_inv _ blocks); simpl.
  - apply blocks_nonneg.
  - intros. by apply arrayblk_ok.
  - intros. rewrite /arrayblk_init. apply (roomy_bind1 _ _ any); [apply roomy_array_init; lia|intros; roomy_all].
  - intros b sz by' st n k c Hb (_ & bl & cap & Hbl & _ & ? & _) Hn Hk Hc. eapply roomy_arrayblk_grow; [lia|apply Hc|done|apply blocks_nonneg; lia|].
    rewrite /blocks. lia.
  - intros b sz by' st n k v Hb Hi Hn. destruct Hi as (Hc & bl & cap & Hbl & Hnb & Hbl0 & _). rewrite /arrayblk_insert Hc.
    pose proof (add64_le n 1 ltac:(lia)). pose proof (add64_pos n 1). pose proof roomy_arrayblk_set.
    apply (roomy_bind1 _ _ any); [|intros; roomy_all]. eapply (roomy_arrayblk_grow _ _ _ sz); [lia|lia|done|done|].
    change (blocks 1) with 1. pose proof (blocks_next n bl ltac:(lia)).
    pose proof (Z.div_le_mono (add64 n 1 + 4095) (n + 1 + 4095) 4096 ltac:(lia) ltac:(lia)). lia.
  - intros. apply roomy_arrayblk_ref.
  - intros. apply roomy_arrayblk_set.
  - intros. rewrite /arrayblk_get. pose proof roomy_arrayblk_ref. roomy_all.
  - intros. rewrite /arrayblk_done. pose proof roomy_blocks_free. pose proof roomy_array_done. roomy_all.
Qed.

Lemma arrayblkof_completes_ok : array_completes arrayblkof_a
  (λ size bytes, Z.max (Z.max 512 (4096 * bytes)) (8 * ((size + 4095) / 4096))) (λ n, blocks (Z.max 0 n)).
Proof.
  apply (array_roomy arrayblkof_a arrayblkof_inv _ blocks); simpl.
  - apply blocks_nonneg.
  - intros. by apply arrayblkof_ok.
  - intros. rewrite /arrayblkof_init. apply (roomy_bind1 _ _ any); [apply roomy_array_init; lia|intros; roomy_all].
  - intros b sz by' t n k c Hb (_ & He & bl & cap & Hbl & _ & ? & _) Hn Hk Hc.
    pose proof (block_max_le c sz ltac:(lia) ltac:(lia)). pose proof (block_max_le c c ltac:(lia) ltac:(lia)).
    pose proof (blocks_nonneg c ltac:(lia)). rewrite /blocks.
    rewrite /arrayblkof_grow. case_decide; [roomy_all|]. cbv zeta.
    change ARRAYBLKOF_SIZE with 4096. case_decide; [|roomy_all].
    apply (roomy_bind _ _ _ any); [apply roomy_array_grow; lia| |lia]. intros blk _. apply (roomy_bind1 _ _ any); [|intros; roomy_all].
    apply (roomy_le _ (Z.of_nat (Z.to_nat (sub64 (add64 c 4096) 1 / 4096 - array_size (abo_block t))))); [|lia].
    rewrite He. generalize (Z.to_nat (sub64 (add64 c 4096) 1 / 4096 - array_size (abo_block t))).
    intros f. generalize (array_size (abo_block t)). pose proof roomy_array_set. induction f as [|f IH]; intros i; cbn [arrayblkof_alloc]; [by roomy_all|].
    replace (Z.of_nat (S f)) with (1 + Z.of_nat f) by lia. apply (roomy_bind _ _ _ any); [| |lia].
    { apply roomy_calloc_bytes; [lia|]. change ARRAYBLKOF_SIZE with 4096. lia. }
    intros ? _. repeat (apply roomy_bind0; [lia|by roomy_all|intros ?]). apply IH.
  - intros. apply roomy_ub.
  - intros. rewrite /arrayblkof_ref. pose proof roomy_array_get. roomy_all.
  - intros. apply roomy_ub.
  - intros. apply roomy_ub.
  - intros. rewrite /arrayblkof_done. pose proof roomy_blocks_free. pose proof roomy_array_done. roomy_all.
Qed.
