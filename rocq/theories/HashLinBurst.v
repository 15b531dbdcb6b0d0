(** * A history after which one insertion does an unbounded amount of resize work *)
From Verif Require Export HashLinAmort.
Global Open Scope Z_scope.

(** ** Clients that insert and remove given nodes *)
Definition inserts (ps : list Z) : list top := (λ p, TInsert p 0 0) <$> ps.
Definition removes (ps : list Z) : list top := TRemoveExisting <$> ps.

(** At least the nodes [F] are free and at least the nodes [E] are in the table. *)
Definition has_nodes (F E : list Z) (s : tstate) : Prop :=
  (∀ p, p ∈ F → p ∈ ts_free s) ∧ ∃ es, ts_tab s = TabEs es ∧ ∀ p, p ∈ E → p ∈ en_p <$> es.

Lemma allowed_inserts om K : ∀ ps F E s rest,
  NoDup (ps ++ F) → has_nodes (ps ++ F) E s →
  (∀ s', has_nodes F (ps ++ E) s' → allowed (tpre om K) tpost s' (prog_of_list rest)) →
  allowed (tpre om K) tpost s (prog_of_list (inserts ps ++ rest)).
Proof.
  induction ps as [|p ps IH]; intros F E s rest Hnd [HF (es & Ht & HE)] Hk; simpl; [apply Hk; split; eauto|].
  split. { split; [apply HF; left|]. split; [by exists es|]. split; lia. }
  intros a s' (es' & Ht' & -> & ->). rewrite Ht in Ht'. injection Ht' as <-.
  simpl in Hnd. apply NoDup_cons in Hnd as [Hni Hnd].
  eapply (IH F (p :: E)); [done| |].
  - split; simpl.
    + intros q Hq. apply elem_of_difference. split; [apply HF; by right|]. intros ->%elem_of_singleton. done.
    + exists (es ++ [Ent p 0 0]). split; [done|]. intros q Hq. rewrite fmap_app elem_of_app.
      apply elem_of_cons in Hq as [->|Hq]; [right; by left|left; auto].
  - intros s' [HF' (es' & Ht' & HE')]. apply Hk. split; [done|]. exists es'. split; [done|].
    intros q Hq. apply HE'. set_solver.
Qed.

Lemma allowed_removes om K : ∀ ps F E s rest,
  NoDup (ps ++ E) → has_nodes F (ps ++ E) s →
  (∀ s', has_nodes (ps ++ F) E s' → allowed (tpre om K) tpost s' (prog_of_list rest)) →
  allowed (tpre om K) tpost s (prog_of_list (removes ps ++ rest)).
Proof.
  induction ps as [|p ps IH]; intros F E s rest Hnd [HF (es & Ht & HE)] Hk; simpl; [apply Hk; split; eauto|].
  split. { exists es. split; [done|]. apply HE. left. }
  intros a s' (es1 & d & h & es2 & Ht' & -> & ->). rewrite Ht in Ht'. injection Ht' as ->.
  simpl in Hnd. apply NoDup_cons in Hnd as [Hni Hnd].
  eapply (IH (p :: F) E); [done| |].
  - split; simpl.
    + intros q Hq. apply elem_of_union. apply elem_of_cons in Hq as [->|Hq]; [right; set_solver|left; auto].
    + exists (es1 ++ es2). split; [done|]. intros q Hq. assert (q ≠ p) by (intros ->; done).
      specialize (HE q ltac:(by right)). rewrite !fmap_app fmap_cons in HE. rewrite fmap_app. set_solver.
  - intros s' [HF' Hr]. apply Hk. split; [|done]. intros q Hq. apply HF'. set_solver.
Qed.

(** ** The struct during such a client *)
Section phases.
  Variables (fuel : nat) (t : Z).

  Lemma run_inserts (I : Z → hashlin → Prop) (lim : Z) :
    (∀ c st p m st' m', c < lim → I c st → hashlin_insert fuel st p 0 0 m = Ok st' m' → I (c + 1) st') →
    ∀ ps c st rest m l m', c + Z.of_nat (length ps) <= lim → I c st →
    run_all (tstep hashlin_table fuel t) (Some st) (prog_of_list (inserts ps ++ rest)) m = Ok l m' →
    ∃ st' l1 l2 m1, l = l1 ++ l2 ∧ I (c + Z.of_nat (length ps)) st' ∧
      (∀ cs, struct_after cs l1 = match ps with [] => cs | _ => Some st' end) ∧ (ps = [] → st' = st) ∧
      run_all (tstep hashlin_table fuel t) (Some st') (prog_of_list rest) m1 = Ok l2 m'.
  Proof.
    intros Hstep. induction ps as [|p ps IH]; intros c st rest m l m' Hlim HI Hr; simpl in Hr.
    - exists st, [], l, m. simpl. rewrite Z.add_0_r. eauto 10.
    - inv_bind Hr r m1 H1. inv_bind Hr l' m2 H2. injection Hr as <- <-.
      inv_bind H1 st1 m3 H3. injection H1 as <- <-. simpl in *.
      pose proof (Hstep c st p m st1 m3 ltac:(lia) HI H3) as HI1.
      destruct (IH (c + 1) st1 _ _ _ _ ltac:(lia) HI1 H2) as (st' & l1 & l2 & m4 & -> & HI' & Hsa & Hnil & Hr').
      exists st', ((TInsert p 0 0, TONone, Some st1) :: l1), l2, m4.
      split; [done|]. split; [by replace (c + Z.of_nat (S (length ps))) with (c + 1 + Z.of_nat (length ps)) by lia|].
      split; [|done]. intros cs. simpl. rewrite Hsa. destruct ps; [by rewrite Hnil|done].
  Qed.

  Lemma run_removes (I : Z → hashlin → Prop) (lim : Z) :
    (∀ c st p m st' d m', lim < c → I c st → hashlin_remove_existing st p m = Ok (st', d) m' → I (c - 1) st') →
    ∀ ps c st rest m l m', lim <= c - Z.of_nat (length ps) → I c st →
    run_all (tstep hashlin_table fuel t) (Some st) (prog_of_list (removes ps ++ rest)) m = Ok l m' →
    ∃ st' l1 l2 m1, l = l1 ++ l2 ∧ I (c - Z.of_nat (length ps)) st' ∧
      run_all (tstep hashlin_table fuel t) (Some st') (prog_of_list rest) m1 = Ok l2 m'.
  Proof.
    intros Hstep. induction ps as [|p ps IH]; intros c st rest m l m' Hlim HI Hr; simpl in Hr.
    - exists st, [], l, m. simpl. rewrite Z.sub_0_r. eauto 10.
    - inv_bind Hr r m1 H1. inv_bind Hr l' m2 H2. injection Hr as <- <-.
      inv_bind H1 r' m3 H3. injection H1 as <- <-. simpl in *. destruct r' as [st1 d].
      pose proof (Hstep c st p m st1 d m3 ltac:(lia) HI H3) as HI1.
      destruct (IH (c - 1) st1 _ _ _ _ ltac:(lia) HI1 H2) as (st' & l1 & l2 & m4 & -> & HI' & Hr').
      eexists st', (_ :: l1), l2, m4.
      split; [done|]. split; [by replace (c - Z.of_nat (S (length ps))) with (c - 1 - Z.of_nat (length ps)) by lia|done].
  Qed.
End phases.

(** ** The three phases *)
Definition hl_pow2 (st : hashlin) : Prop := ∃ j, 6 <= j <= 60 ∧ hl_bucket_max st = 2 ^ j ∧ hl_bucket_bit st = j.

(** Building up from the empty table. *)
Definition phaseA (c : Z) (st : hashlin) : Prop :=
  hl_count st = c ∧ 0 <= c ∧ hl_pow2 st ∧
  ((hl_state st = STATE_STABLE ∧ hl_split st = 0 ∧ hl_low_max st = hl_bucket_max st ∧
     2 * c <= hl_bucket_max st ∧ (hl_bucket_max st = 64 ∨ hl_bucket_max st = 2 * c)) ∨
   (hl_state st = STATE_GROW ∧ hl_low_max st + hl_split st = 2 * c ∧ hl_bucket_max st = 2 * hl_low_max st ∧
     1 <= hl_split st < hl_low_max st)).

Lemma phaseA_step fuel c st p m st' m' :
  c < 2 ^ 50 → phaseA c st → hashlin_insert fuel st p 0 0 m = Ok st' m' → phaseA (c + 1) st'.
Proof.
  intros Hlim (Hc & Hc0 & (j & Hj & Hbm & Hbit) & Hcase) Hr.
  rewrite /hashlin_insert in Hr. inv_bind Hr b m1 H1. inv_bind Hr u m2 H2. inv_bind Hr u' m3 H3.
  rewrite Hc in Hr. replace (wrap (c + 1)) with (c + 1) in Hr by (rewrite /wrap Z.mod_small; lia).
  unfold hashlin_grow_step in Hr. cbn [hl_set_count hl_state hl_bucket_max hl_count] in Hr.
  destruct (pow2_div8 j ltac:(lia)) as (q & Hq & Hq0).
  assert (Hhalf : hl_bucket_max st / 2 = 32 * q).
  { rewrite Hbm Hq. symmetry. apply (Z.div_unique _ _ _ 0); lia. }
  rewrite Hhalf in Hr.
  assert (Hw2 : wrap (2 * (c + 1)) = 2 * (c + 1)) by (rewrite /wrap Z.mod_small; lia).
  inv_bind Hr st1 m4 Hs1.
  destruct Hcase as [(Hst & Hsp & Hlow & H4 & H5)|(Hst & Hsp & Hlow & H4)].
  - rewrite Hst in Hs1.
    destruct (decide (STATE_STABLE ≠ STATE_GROW ∧ 32 * q < c + 1)) as [[_ Hd]|Hd].
    + inv_bind Hs1 st2 m5 Hs2. injection Hs1 as <- <-.
      inv_bind Hs2 sg m6 Hsg. inv_bind Hs2 st3 m7 Hs3. inv_bind Hs2 st4 m8 Hs4. injection Hs2 as <- <-.
      rewrite /hl_set in Hs3. case_decide; [|done]. injection Hs3 as <- <-.
      rewrite /hl_set_bit in Hs4. case_decide; [|done]. injection Hs4 as <- <-.
      cbn [hl_set_low hl_set_split hl_set_state hl_set_count hl_state hl_bucket hl_bucket_max hl_bucket_mask hl_low_max hl_low_mask hl_split hl_count hl_bucket_bit] in Hr.
      rewrite ?decide_True // Hw2 in Hr. apply grow_loop_result in Hr; [|simpl; lia|simpl; lia].
      rewrite /hl_valid_buckets in Hr.
      cbn [hashlin_stable hl_set_low hl_set_split hl_set_state hl_set_count hl_state hl_bucket hl_bucket_max hl_bucket_mask hl_low_max hl_low_mask hl_split hl_count hl_bucket_bit] in Hr.
      assert (Hj50 : j < 60). { destruct (decide (j = 60)) as [->|]; [|lia]. lia. }
      destruct Hr as [[Hr1 ->]|[[Hr1 ->]|(Hr1 & Hr2 & ->)]]; [lia| |lia].
      split; [done|]. split; [lia|]. rewrite Hbit.
      assert (Hsh : shl64 1 (j + 1) = 2 * 2 ^ j).
      { rewrite shl64_pow; [|lia]. rewrite -Z.pow_succ_r; [|lia]. f_equal. }
      split. { exists (j + 1). split; [lia|]. split; [|done]. simpl. rewrite shl64_pow //. lia. }
      right. simpl. rewrite Hsh. split; [done|]. lia.
    + injection Hs1 as <- <-. rewrite decide_False in Hr; [|by rewrite /= Hst]. injection Hr as <- <-.
      assert (Hle : c + 1 <= 32 * q). { destruct (decide (32 * q < c + 1)); [|lia]. destruct Hd. done. }
      split; [done|]. split; [lia|]. split; [by exists j|]. left. simpl. lia.
  - rewrite Hst in Hs1.
    destruct (decide (STATE_GROW ≠ STATE_GROW ∧ 32 * q < c + 1)) as [Hd|Hd]; [by destruct Hd|]. injection Hs1 as <- <-.
    rewrite decide_True // in Hr. rewrite /= Hw2 in Hr.
    assert (hl_low_max st <= 2 ^ 60) by lia.
    apply grow_loop_result in Hr; [|simpl; lia|simpl; lia].
    rewrite /hl_valid_buckets /= in Hr.
    destruct Hr as [[Hr1 ->]|[[Hr1 ->]|(Hr1 & Hr2 & ->)]]; [lia| |].
    + split; [done|]. split; [lia|]. split; [by exists j|]. right. simpl. split; [done|]. lia.
    + split; [done|]. split; [lia|]. split; [by exists j|]. left. simpl. split; [done|]. lia.
Qed.

(** Removing, [low] being the size that the table shrinks to. *)
Definition phaseB (low c : Z) (st : hashlin) : Prop :=
  hl_count st = c ∧ (∃ j, 6 < j <= 60 ∧ hl_bucket_max st = 2 ^ j ∧ hl_bucket_bit st = j) ∧
  hl_bucket_max st = 2 * low ∧
  ((hl_state st = STATE_STABLE ∧ hl_split st = 0 ∧ hl_low_max st = 2 * low ∧ low <= 4 * c) ∨
   (hl_state st = STATE_SHRINK ∧ hl_low_max st = low ∧ low + hl_split st = 8 * c ∧ 8 * c < 2 * low)).

Lemma phaseB_step low c st p m st' d m' :
  low / 8 + 1 < c → c < 2 ^ 50 → phaseB low c st → hashlin_remove_existing st p m = Ok (st', d) m' → phaseB low (c - 1) st'.
Proof.
  intros Hc8 Hlim (Hc & (j & Hj & Hbm & Hbit) & Hlow2 & Hcase) Hr.
  rewrite /hashlin_remove_existing in Hr. inv_bind Hr i m1 H1. inv_bind Hr b m2 H2. inv_bind Hr u m3 H3.
  inv_bind Hr st1 m4 H4. inv_bind Hr d1 m5 H5. injection Hr as -> -> ->. clear H1 H2 H3 H5.
  destruct (pow2_div8 j ltac:(lia)) as (q & Hq & Hq0).
  assert (low / 8 = 4 * q) as Hl8.
  { symmetry. apply (Z.div_unique _ _ _ 0); lia. }
  rewrite Hl8 in Hc8.
  rewrite Hc in H4. replace (sub64 c 1) with (c - 1) in H4 by (rewrite /sub64 Z.mod_small; lia).
  unfold hashlin_shrink_step in H4. cbn [hl_set_count hl_state hl_bucket_max hl_bucket_mask hl_bucket_bit hl_count] in H4.
  assert (Hhalf : hl_bucket_max st / 2 = low).
  { symmetry. apply (Z.div_unique _ _ _ 0); lia. }
  assert (H8 : hl_bucket_max st / 8 = 8 * q).
  { rewrite Hbm Hq. symmetry. apply (Z.div_unique _ _ _ 0); lia. }
  rewrite Hhalf H8 Hbit in H4.
  assert (Hw8 : wrap (8 * (c - 1)) = 8 * (c - 1)) by (rewrite /wrap Z.mod_small; lia).
  pose proof (pow2_small j ltac:(lia)) as Hsm.
  destruct Hcase as [(Hst & Hsp & Hlow & H5)|(Hst & Hlow & Hsp & H5)]; rewrite Hst in H4.
  - destruct (decide (STATE_STABLE ≠ STATE_SHRINK ∧ c - 1 < 8 * q ∧ HASHLIN_BIT < j)) as [(_ & Hd & Hk6)|Hno].
    + cbn [hl_set_low hl_set_split hl_set_state hl_set_count hl_state hl_bucket hl_bucket_max hl_bucket_mask hl_low_max hl_low_mask hl_split hl_count hl_bucket_bit] in H4.
      rewrite ?decide_True // Hw8 in H4.
      apply shrink_loop_result in H4; [|simpl; lia|simpl; lia].
      rewrite /hl_valid_buckets in H4.
      cbn [hl_set_low hl_set_split hl_set_state hl_set_count hl_state hl_bucket hl_bucket_max hl_bucket_mask hl_low_max hl_low_mask hl_split hl_count hl_bucket_bit] in H4.
      simpl in H4.
      destruct H4 as [[Hr1 ->]|[[Hr1 ->]|(Hr1 & Hr2 & _)]]; [lia| |lia].
      split; [done|]. split; [by exists j|]. split; [done|]. right. simpl. split; [done|]. lia.
    + rewrite decide_False in H4; [|by rewrite /= Hst]. injection H4 as <- <-.
      assert (8 * q <= c - 1).
      { destruct (decide (c - 1 < 8 * q)); [|lia]. destruct Hno. rewrite /HASHLIN_BIT. split; [done|lia]. }
      split; [done|]. split; [by exists j|]. split; [done|]. left. simpl. split; [done|]. lia.
  - destruct (decide (STATE_SHRINK ≠ STATE_SHRINK ∧ c - 1 < 8 * q ∧ HASHLIN_BIT < j)) as [[? _]|_]; [done|].
    rewrite /= Hst in H4. rewrite ?decide_True // Hw8 in H4.
    apply shrink_loop_result in H4; [|simpl; lia|simpl; lia].
    rewrite /hl_valid_buckets /= in H4.
    destruct H4 as [[Hr1 ->]|[[Hr1 ->]|(Hr1 & Hr2 & _)]]; [lia| |lia].
    split; [done|]. split; [by exists j|]. split; [done|]. right. simpl. split; [done|]. lia.
Qed.

(** Inserting again, nothing is split. *)
Definition phaseC (low c : Z) (st : hashlin) : Prop :=
  hl_count st = c ∧ 0 <= c ∧ hl_pow2 st ∧ hl_bucket_max st = 2 * low ∧
  hl_state st = STATE_SHRINK ∧ hl_low_max st = low ∧ hl_split st = 8.

Lemma phaseC_step fuel low c st p m st' m' :
  low < 2 ^ 50 → c < low → phaseC low c st → hashlin_insert fuel st p 0 0 m = Ok st' m' → phaseC low (c + 1) st'.
Proof.
  intros Hl50 Hlim (Hc & Hc0 & (j & Hj & Hbm & Hbit) & Hlow2 & Hst & Hlow & Hsp) Hr.
  rewrite /hashlin_insert in Hr. inv_bind Hr b m1 H1. inv_bind Hr u m2 H2. inv_bind Hr u' m3 H3.
  rewrite Hc in Hr. replace (wrap (c + 1)) with (c + 1) in Hr by (rewrite /wrap Z.mod_small; lia).
  unfold hashlin_grow_step in Hr. cbn [hl_set_count hl_state hl_bucket_max hl_count] in Hr.
  assert (Hhalf : hl_bucket_max st / 2 = low). { symmetry. apply (Z.div_unique _ _ _ 0); lia. }
  rewrite Hhalf Hst in Hr. inv_bind Hr st1 m4 Hs1.
  destruct (decide (STATE_SHRINK ≠ STATE_GROW ∧ low < c + 1)) as [[_ Hd]|Hd]; [lia|]. injection Hs1 as <- <-.
  rewrite decide_False in Hr; [|by rewrite /= Hst]. injection Hr as <- <-.
  split; [done|]. split; [lia|]. split; [by exists j|]. done.
Qed.

Lemma phaseC_last fuel low st p m st' m' :
  64 <= low < 2 ^ 50 → phaseC low low st → hashlin_insert fuel st p 0 0 m = Ok st' m' →
  hl_moves st st' = low - 8.
Proof.
  intros Hl50 (Hc & Hc0 & (j & Hj & Hbm & Hbit) & Hlow2 & Hst & Hlow & Hsp) Hr.
  rewrite /hashlin_insert in Hr. inv_bind Hr b m1 H1. inv_bind Hr u m2 H2. inv_bind Hr u' m3 H3.
  rewrite Hc in Hr. replace (wrap (low + 1)) with (low + 1) in Hr by (rewrite /wrap Z.mod_small; lia).
  unfold hashlin_grow_step in Hr. cbn [hl_set_count hl_state hl_bucket_max hl_count] in Hr.
  assert (Hhalf : hl_bucket_max st / 2 = low). { symmetry. apply (Z.div_unique _ _ _ 0); lia. }
  rewrite Hhalf Hst in Hr. inv_bind Hr st1 m4 Hs1.
  assert (Hw2 : wrap (2 * (low + 1)) = 2 * (low + 1)) by (rewrite /wrap Z.mod_small; lia).
  destruct (decide (STATE_SHRINK ≠ STATE_GROW ∧ low < low + 1)) as [_|Hd]; [|destruct Hd; split; [done|lia]].
  inv_bind Hs1 st2 m5 Hs2. injection Hs2 as <- <-. injection Hs1 as <- <-.
  rewrite ?decide_True // /= Hw2 in Hr. apply grow_loop_result in Hr; [|simpl; lia|simpl; lia].
  rewrite /hl_moves /hl_valid_buckets /= in Hr |- *.
  destruct Hr as [[Hr1 ->]|[[Hr1 ->]|(Hr1 & Hr2 & ->)]]; [lia|lia|]. simpl. lia.
Qed.

(** ** The history *)
Definition burst_client (ps1 ps2 : list Z) (p : Z) : prog top tout :=
  prog_of_list (TInit 0 :: inserts (ps1 ++ ps2) ++ removes ps2 ++ inserts ps2 ++ inserts [p]).

Lemma burst_allowed om K live ps1 ps2 p :
  NoDup (p :: ps1 ++ ps2) → (∀ q, q ∈ p :: ps1 ++ ps2 → q ∈ dom om) →
  allowed (tpre om K) tpost (tstate0 om live) (burst_client ps1 ps2 p).
Proof.
  intros Hnd Hin. rewrite /burst_client. cbn [prog_of_list allowed]. split; [done|].
  intros a s' [-> ->]. simpl. apply NoDup_cons in Hnd as [Hp Hnd].
  eapply (allowed_inserts om K _ [p] []).
  { rewrite (Permutation_app_comm _ [p]). simpl. by apply NoDup_cons. }
  { split; simpl; [|exists []; split; [done|by intros ? ?%elem_of_nil]]. intros q Hq. apply Hin. set_solver. }
  rewrite app_nil_r. intros s1 Hs1.
  eapply (allowed_removes om K _ [p] ps1).
  { by rewrite (Permutation_app_comm ps2). }
  { destruct Hs1 as [HF (es & Ht & HE)]. split; [done|]. exists es. split; [done|]. set_solver. }
  intros s2 Hs2. apply NoDup_app in Hnd as (Hnd1 & Hnd2 & Hnd3).
  eapply (allowed_inserts om K _ [p] ps1); [|exact Hs2|].
  { apply NoDup_app. split; [done|]. split; [|apply NoDup_singleton]. intros x Hx ->%elem_of_list_singleton. set_solver. }
  intros s3 Hs3.
  refine (allowed_inserts om K [p] [] (ps2 ++ ps1) s3 [] _ Hs3 _); [apply NoDup_singleton|done].
Qed.

Lemma hashlin_burst k om K t live m fuel :
  0 <= k <= 40 → table_start om K t live m → (size om <= fuel)%nat → 64 * 2 ^ k < Z.of_nat (size om) →
  ∃ c, allowed (tpre om K) tpost (tstate0 om live) c ∧
  safe (run_all (tstep hashlin_table fuel t) None c m) (λ l _,
    ∃ l0 x, l = l0 ++ [x] ∧ is_update x.1.1 = true ∧
      op_work (struct_after None l0) x.2 = 64 * 2 ^ k - 8).
Proof.
  intros Hk Hs Hf Hsz. set (low := 64 * 2 ^ k) in *.
  assert (Hlow : 64 <= low < 2 ^ 50).
  { subst low. assert (2 ^ k <= 2 ^ 40) by (apply Z.pow_le_mono_r; lia). assert (0 < 2 ^ k) by (apply Z.pow_pos_nonneg; lia). lia. }
  assert (Hl8 : low / 8 = 8 * 2 ^ k). { subst low. symmetry. apply (Z.div_unique _ _ _ 0); lia. }
  assert (∃ p ps1 ps2, NoDup (p :: ps1 ++ ps2) ∧ (∀ q, q ∈ p :: ps1 ++ ps2 → q ∈ dom om) ∧
    Z.of_nat (length ps1) = low / 8 + 1 ∧ Z.of_nat (length ps2) = low - (low / 8 + 1)) as (p & ps1 & ps2 & Hnd & Hin & Hn1 & Hn2).
  { assert (Hlen : length (elements (dom om)) = size om) by (by rewrite -size_dom).
    pose proof (NoDup_elements (dom om)) as Hnd. assert (Hel : ∀ q, q ∈ elements (dom om) → q ∈ dom om) by set_solver.
    destruct (elements (dom om)) as [|p qs]; [simpl in Hlen; lia|]. simpl in Hlen.
    set (n1 := Z.to_nat (low / 8 + 1)). set (n2 := Z.to_nat (low - (low / 8 + 1))).
    assert (n1 + n2 = Z.to_nat low)%nat as Hn12 by (subst n1 n2; lia).
    exists p, (take n1 qs), (take n2 (drop n1 qs)).
    assert (Heq : take n1 qs ++ take n2 (drop n1 qs) = take (n1 + n2) qs).
    { by rewrite take_take_drop. }
    rewrite Heq Hn12. apply NoDup_cons in Hnd as [Hp Hnd].
    assert (Hsub : ∀ q n, q ∈ take n qs → q ∈ qs).
    { intros q n Hq. rewrite -(take_drop n qs). apply elem_of_app. by left. }
    split; [|split; [|split]].
    - apply NoDup_cons. split; [intros Hc; apply Hp; by eapply Hsub|].
      rewrite -(take_drop (Z.to_nat low) qs) in Hnd. by apply NoDup_app in Hnd as [? _].
    - intros q Hq. apply Hel. apply elem_of_cons in Hq as [->|Hq]; [left|right]. by eapply Hsub.
    - rewrite take_length. lia.
    - rewrite take_length drop_length. lia. }
  exists (burst_client ps1 ps2 p). pose proof (burst_allowed om K live ps1 ps2 p Hnd Hin) as Ha.
  split; [done|].
  pose proof (hashlin_history om K t live m fuel _ Hs Hf Ha) as Hh. unfold safe in *.
  destruct (run (tstep hashlin_table fuel t) None (burst_client ps1 ps2 p) m) as [r m'| | |] eqn:E; try done;
    [|by rewrite (run_all_env _ _ _ _ _ E)].
  clear Hh. destruct (run_all_ok _ _ _ _ _ _ E) as (l & Hl & _). rewrite Hl. clear E.
  rewrite /burst_client in Hl. simpl in Hl. inv_bind Hl r1 m1 H1. inv_bind H1 st0 m2 H2. injection H1 as <- <-.
  inv_bind Hl l' m3 H3. injection Hl as <- <-. simpl in H3.
  assert (HA : phaseA 0 st0).
  { rewrite /hashlin_init in H2. inv_bind H2 sg m4 H4. injection H2 as <- <-.
    split; [done|]. split; [done|]. split; [exists 6; split; [lia|split; reflexivity]|]. left. repeat split; try reflexivity; try lia; [done|by left]. }
  assert (HstepA : ∀ c st p m st' m', c < low → phaseA c st → hashlin_insert fuel st p 0 0 m = Ok st' m' → phaseA (c + 1) st').
  { intros c ? ? ? ? ? Hc. apply phaseA_step. lia. }
  destruct (run_inserts fuel t phaseA low HstepA (ps1 ++ ps2) 0 st0 _ _ _ _ ltac:(rewrite app_length; lia) HA H3)
    as (st1 & l1 & l2 & m4 & -> & HA1 & _ & _ & H3'). clear H3. rename H3' into H3.
  replace (0 + Z.of_nat (length (ps1 ++ ps2))) with low in HA1 by (rewrite app_length; lia).
  assert (HB : phaseB low low st1).
  { destruct HA1 as (Hc & _ & (j & Hj & Hbm & Hbit) & Hcase).
    assert (Hl2 : 2 * low = 2 ^ (k + 7)).
    { subst low. rewrite Z.pow_add_r; [|lia..]. change (2 ^ 7) with 128. lia. }
    destruct Hcase as [(Hst & Hsp & Hlm & H4 & [H5|H5])|(Hst & Hsp & Hlm & H4)]; [lia| |].
    - split; [done|]. split. { exists j. split; [|done]. destruct (decide (j = 6)) as [->|]; [|lia].
        change (2 ^ 6) with 64 in Hbm. lia. }
      split; [lia|]. left. lia.
    - exfalso. (* 2 * low would be strictly between two powers of two *)
      destruct (decide (j <= k + 7)) as [Hle|Hle].
      + assert (2 ^ j <= 2 ^ (k + 7)) by (apply Z.pow_le_mono_r; lia). lia.
      + assert (2 ^ (k + 8) <= 2 ^ j) by (apply Z.pow_le_mono_r; lia).
        replace (k + 8) with (Z.succ (k + 7)) in H by lia. rewrite Z.pow_succ_r in H; lia. }
  assert (HstepB : ∀ c st p m st' d m', low / 8 + 1 < c → c < 2 ^ 50 ∧ phaseB low c st →
    hashlin_remove_existing st p m = Ok (st', d) m' → c - 1 < 2 ^ 50 ∧ phaseB low (c - 1) st').
  { intros c ? ? ? ? ? ? Hc [? ?] ?. split; [lia|]. by eapply phaseB_step. }
  destruct (run_removes fuel t (λ c st, c < 2 ^ 50 ∧ phaseB low c st) (low / 8 + 1) HstepB ps2 low st1 _ _ _ _ ltac:(lia)
    (conj (proj2 Hlow) HB) H3) as (st2 & l3 & l4 & m5 & -> & [_ HB2] & H3'). clear H3. rename H3' into H3.
  replace (low - Z.of_nat (length ps2)) with (low / 8 + 1) in HB2 by lia.
  assert (HC : phaseC low (low / 8 + 1) st2).
  { destruct HB2 as (Hc & (j & Hj & Hbm & Hbit) & Hlm & Hcase).
    destruct Hcase as [(Hst & Hsp & Hlm' & H5)|(Hst & Hlm' & Hsp & H5)]; [lia|].
    split; [done|]. split; [lia|]. split; [exists j; split; [lia|done]|]. split; [done|]. split; [done|]. split; [done|]. lia. }
  assert (Hps2 : ps2 ≠ []) by (intros ->; simpl in Hn2; lia).
  assert (HstepC : ∀ c st p m st' m', c < low → phaseC low c st → hashlin_insert fuel st p 0 0 m = Ok st' m' → phaseC low (c + 1) st').
  { intros c ? ? ? ? ? Hc. apply phaseC_step; lia. }
  destruct (run_inserts fuel t (phaseC low) low HstepC ps2 (low / 8 + 1) st2 _ _ _ _ ltac:(lia) HC H3)
    as (st3 & l5 & l6 & m6 & -> & HC3 & Hsa & _ & H3'). clear H3. rename H3' into H3.
  replace (low / 8 + 1 + Z.of_nat (length ps2)) with low in HC3 by lia.
  simpl in H3. inv_bind H3 r2 m7 H4. inv_bind H4 st4 m8 H5. injection H4 as <- <-. injection H3 as <- <-. simpl.
  exists ((TInit 0, TONone, Some st0) :: l1 ++ l3 ++ l5), (TInsert p 0 0, TONone, Some st4).
  split; [by rewrite /= -!app_assoc|]. split; [done|].
  assert (Hlast : struct_after None ((TInit 0, TONone, Some st0) :: l1 ++ l3 ++ l5) = Some st3).
  { simpl. rewrite !struct_after_app Hsa. by destruct ps2. }
  simpl in Hlast |- *. rewrite Hlast. simpl. by eapply phaseC_last.
Qed.
