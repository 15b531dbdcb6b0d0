(** * Accesses of whole histories of the linear and of the dynamic hashtable. *)
From Verif Require Export CostTables.
From Verif Require Import AccessSpec.
Global Open Scope Z_scope.

(** ** Removing needs no credit *)
Lemma hl_tosplit_sub low split es es' : es' ⊆+ es → hl_tosplit low split es' ≤ hl_tosplit low split es.
Proof. intros H. unfold hl_tosplit. apply inj_le, submseteq_length. by apply filter_submseteq. Qed.
Lemma hl_pot_sub st es es' : es' ⊆+ es → hl_pot st es' ≤ hl_pot st es.
Proof.
  intros H. pose proof (submseteq_length _ _ H). pose proof (hl_tosplit_sub (hl_low_max st) (hl_split st) _ _ H).
  unfold hl_pot, hl_slack, hl_growing. destruct (decide (hl_state st = STATE_GROW)), (decide (hl_state st = STATE_SHRINK)); lia.
Qed.
Lemma hl_pot_set st c es : hl_pot (hl_set_count st c) es = hl_pot st es.
Proof. done. Qed.

Lemma shrink_loop_ends lfuel : ∀ st tgt m st' m', hl_state st = STATE_SHRINK → shl64 1 (hl_bucket_bit st - 1) = hl_low_max st →
  hashlin_shrink_loop lfuel st tgt m = Ok st' m' →
  (hl_state st' = STATE_SHRINK ∧ hl_low_max st' = hl_low_max st) ∨ (hl_state st' = STATE_STABLE ∧ hl_bucket_max st' = hl_low_max st).
Proof.
  induction lfuel as [|lfuel IH]; intros st tgt m st' m' Hst Hb Hr; cbn [hashlin_shrink_loop] in *; destruct (decide _) as [Hlt|Hge]; try done.
  - injection Hr as <- <-. by left.
  - cbv zeta in Hr. inv_bind Hr s0 m1 H1. inv_bind Hr s1 m2 H2. inv_bind Hr u m3 H3.
    destruct (decide (hl_split (hl_set_split st (sub64 (hl_split st) 1)) = 0)) as [Hend|Hend].
    + inv_bind Hr t1 m4 H4. inv_bind Hr sg m5 H5. inv_bind Hr u2 m6 H6. injection Hr as <- <-.
      rewrite /hl_set_bit in H4. case_decide; [|done]. injection H4 as <- <-. right. split; [done|]. exact Hb.
    + exact (IH (hl_set_split st (sub64 (hl_split st) 1)) tgt m3 st' m' Hst Hb Hr).
  - injection Hr as <- <-. by left.
Qed.

Lemma shrink_pot st es es' m st' m' : hashlin_inv st (length es) → length es = S (length es') → es' ⊆+ es →
  hashlin_shrink_step (hl_set_count st (sub64 (hl_count st) 1)) m = Ok st' m' → hl_pot st' es' ≤ hl_pot st es.
Proof.
  intros Hi Hlen Hsub Hr. pose proof (hashlin_inv_small _ _ Hi) as Hsmall. destruct Hi as (Hc & (k & Hk & Hbm & Hbit) & Hmask & H64 & Hcase).
  destruct (pow2_div8 k ltac:(lia)) as (q & Hq & Hq0). pose proof (pow2_small k ltac:(lia)) as Hsm.
  rewrite Hc in Hr. replace (sub64 (Z.of_nat (length es)) 1) with (Z.of_nat (length es')) in Hr by (rewrite /sub64 Z.mod_small; lia).
  assert (Hhalf : hl_bucket_max st / 2 = 32 * q) by (rewrite Hbm Hq; symmetry; apply (Z.div_unique _ _ _ 0); lia).
  assert (H8 : hl_bucket_max st / 8 = 8 * q) by (rewrite Hbm Hq; symmetry; apply (Z.div_unique _ _ _ 0); lia).
  assert (Hh2 : 32 * q / 2 = 16 * q) by (symmetry; apply (Z.div_unique _ _ _ 0); lia).
  assert (Hsh : shl64 1 (k - 1) = 32 * q).
  { rewrite shl64_pow; [|lia]. assert (2 ^ k = 2 * 2 ^ (k - 1)); [|lia]. rewrite -Z.pow_succ_r; [|lia]. f_equal. lia. }
  pose proof (hl_pot_sub st _ _ Hsub) as Hmono.
  unfold hashlin_shrink_step in Hr.
  cbn [hl_set_count hl_state hl_bucket_max hl_bucket_mask hl_bucket_bit hl_count] in Hr.
  destruct (decide (hl_state st ≠ STATE_SHRINK ∧ _)) as [(Hns & Hlt & _)|Hno].
  - assert (Hpot : 0 ≤ hl_pot st es).
    { unfold hl_pot, hl_slack, hl_growing. pose proof (hl_tosplit_le (hl_low_max st) (hl_split st) es). repeat case_decide; lia. }
    cbv zeta in Hr. set (st1 := hl_set_state (if decide (hl_state st = STATE_STABLE) then _ else _) STATE_SHRINK) in Hr.
    assert (Hlow : hl_low_max st1 = 32 * q ∧ hl_bucket_bit st1 = k).
    { unfold st1. destruct (decide (hl_state st = STATE_STABLE)); [done|]. cbn [hl_set_state hl_low_max hl_bucket_bit hl_set_count].
      destruct Hcase as [(? & _)|[(_ & _ & ? & _)|(? & _)]]; [done| |done]. lia. }
    assert (Hst1 : hl_state st1 = STATE_SHRINK) by done. clearbody st1. destruct Hlow as [Hlow Hb1].
    rewrite decide_True in Hr; [|done]. apply shrink_loop_ends in Hr; [|done|rewrite Hb1; lia].
    destruct Hr as [[Hs Hl]|[Hs Hl]].
    + rewrite (hl_pot_shrink st') //. rewrite Hl Hlow. lia.
    + rewrite (hl_pot_stable st') //. rewrite Hl Hlow Hh2. lia.
  - destruct (decide (hl_state _ = STATE_SHRINK)) as [Hst|Hst].
    + cbn [hl_set_count hl_state] in Hst. destruct Hcase as [(Hx & _)|[(Hx & _)|(_ & _ & Hb2 & _)]]; [by rewrite Hx in Hst|by rewrite Hx in Hst|].
      rewrite (hl_pot_shrink st) //. apply shrink_loop_ends in Hr; [|done|cbn [hl_set_count hl_bucket_bit hl_low_max]; rewrite Hbit; lia].
      cbn [hl_set_count hl_low_max] in Hr. destruct Hr as [[Hs Hl]|[Hs Hl]].
      * rewrite (hl_pot_shrink st') //. rewrite Hl. lia.
      * rewrite (hl_pot_stable st') //. rewrite Hl. replace (hl_low_max st) with (32 * q) by lia. rewrite Hh2. lia.
    + injection Hr as <- <-. by rewrite hl_pot_set.
Qed.
Lemma remove_existing_pot st es es' p m r m' : hashlin_inv st (length es) → length es = S (length es') → es' ⊆+ es →
  hashlin_remove_existing st p m = Ok r m' → hl_pot r.1 es' ≤ hl_pot st es.
Proof.
  intros Hi Hlen Hsub Hr. unfold hashlin_remove_existing in Hr. inv_bind Hr i m1 E1. inv_bind Hr b m2 E2. inv_bind Hr u m3 E3.
  inv_bind Hr st' m4 E4. inv_bind Hr d m5 E5. injection Hr as <- <-. by eapply shrink_pot.
Qed.
Lemma remove_pot fuel st es es' cmp arg h m r m' : hashlin_inv st (length es) → length es = S (length es') → es' ⊆+ es →
  hashlin_remove fuel st cmp arg h m = Ok r m' → hl_pot r.1 es' ≤ hl_pot st es.
Proof.
  intros Hi Hlen Hsub Hr. unfold hashlin_remove in Hr. inv_bind Hr b m1 H1. inv_bind Hr x m2 H2.
  apply bucket_remove_result in Hr as [(p & m3 & Hr)|(m3 & Hr)].
  - inv_bind Hr u m4 H4. inv_bind Hr st' m5 H5. inv_bind Hr d m6 H6. injection Hr as <- <-. by eapply shrink_pot.
  - injection Hr as <- <-. by apply hl_pot_sub.
Qed.

(** ** The table with counters: the elements linked again, and the insertions *)
Record counted_lin := Counted { cl_st : hashlin; cl_links : Z; cl_ins : Z }.
(** An insert that stops if more than four elements per insertion were linked again. *)
Definition counted_insert (fuel : nat) (g : counted_lin) (p d h : Z) : M counted_lin :=
  r ← hashlin_insert_w fuel (cl_st g) p d h;
  massert (bool_decide (cl_links g + r.2 ≤ 4 * (cl_ins g + 1)));;
  mret (Counted r.1 (cl_links g + r.2) (cl_ins g + 1)).
Definition counted_table : table :=
  Table counted_lin (fun _ => st ← hashlin_init; mret (Counted st 0 0)) (fun g => hashlin_done (cl_st g)) counted_insert
    (fun fuel g cmp arg h => r ← hashlin_remove fuel (cl_st g) cmp arg h; mret (Counted r.1 (cl_links g) (cl_ins g), r.2))
    (fun _ g p => r ← hashlin_remove_existing (cl_st g) p; mret (Counted r.1 (cl_links g) (cl_ins g), r.2))
    (fun fuel g => hashlin_search fuel (cl_st g)) (fun g => hashlin_bucket (cl_st g)) (fun g => hashlin_count (cl_st g))
    (fun fuel g => hashlin_foreach fuel (cl_st g)) (fun fuel g => hashlin_foreach_arg fuel (cl_st g)) (fun g => hashlin_memory_usage (cl_st g))
    (fun g => tb_slot hashlin_table (cl_st g)).

Section counted.
  Context `{!memG} (t : Z).
  Lemma wp_fact {A} (c : M A) (P : A → Prop) Φ : (∀ m v m', c m = Ok v m' → P v) → wp c (λ v, ⌜P v⌝ -∗ Φ v) -∗ wp c Φ.
  Proof.
    intros HP. rewrite wp_unseal. iIntros "H" (m) "Hm". iMod ("H" with "Hm") as "H". specialize (HP m).
    destruct (c m); [|done..]. iDestruct "H" as "[$ H]". iModIntro. iApply "H". eauto.
  Qed.

  Definition cl_paid (g : counted_lin) (es : list elem) : Prop := cl_links g + hl_pot (cl_st g) es ≤ 4 * cl_ins g.
  Definition cl_rep (g : counted_lin) (es : list elem) (int : gmap Z region) : iProp := hl_rep (cl_st g) es int ∗ ⌜cl_paid g es⌝.
  Definition cl_shell (g : counted_lin) (int : gmap Z region) : iProp := hl_shell (cl_st g) int.

  Lemma cl_tab g es cl : tabR counted_table cl_rep g es cl ⊣⊢ tabR hashlin_table hl_rep (cl_st g) es cl ∗ ⌜cl_paid g es⌝.
  Proof.
    iSplit.
    - iIntros "(%int & % & [H %] & Hc)". iSplit; [|done]. iExists int. by iFrame.
    - iIntros "[(%int & % & H & Hc) %]". iExists int. by iFrame.
  Qed.
  Lemma tab_inv st es cl : tabR hashlin_table hl_rep st es cl -∗ ⌜hashlin_inv st (length es)⌝.
  Proof. iIntros "(%int & _ & H & _)". by iDestruct (hl_rep_inv with "H") as %(_ & _ & ?). Qed.

  Definition counted_proof : memG_env → table_proof counted_table (λ _ _, True) t.
  Proof.
    intros Henv. refine (TableProof counted_table (λ _ _, True) _ t cl_rep cl_shell _ _ _ (λ g, wp_hl_done (cl_st g))
      _ _ _ _ _ _ _ _ _ _ (λ g, hl_blocks (cl_st g)) _).
    - intros g es int. iIntros "[H _]". by iApply hl_shell_of.
    - intros g es int. iIntros "[H _]". iDestruct (hl_rep_inv with "H") as %(? & ? & ?). done.
    - intros n cl Φ Hn. iIntros "Hc HΦ". cbn [counted_table tb_init]. wp_bind. iApply (wp_hl_init with "Hc"); [done|].
      iIntros (st) "HT". wp_ret. iApply "HΦ". iDestruct (tab_inv with "HT") as %Hi. rewrite cl_tab. iFrame "HT". iPureIntro.
      unfold cl_paid. cbn [cl_links cl_st cl_ins]. destruct Hi as (_ & (k & Hk & Hbm & _) & _ & H64 & Hcase). cbn [length] in Hcase.
      destruct Hcase as [(Hst & _)|[(_ & ? & ? & _ & ?)|(_ & ? & _ & _ & ?)]]; [|lia..].
      rewrite hl_pot_stable //. cbn [length]. assert (0 ≤ hl_bucket_max st / 2) by (apply Z.div_pos; [rewrite Hbm; apply Z.pow_nonneg; lia|lia]). lia.
    - intros fuel g es p d h cl Φ Hf Hw. rewrite cl_tab. iIntros "[HR %Hpaid] Hp HΦ". cbn [counted_table tb_insert tb_st]. unfold counted_insert. wp_bind.
      iApply (wp_hl_insert_w with "HR Hp"); [done..|]. iIntros (st' x [Hx Hpot]) "HT". cbn [fst snd] in *.
      unfold cl_paid in Hpaid.
      assert (Hpos : 0 ≤ hl_pot st' (es ++ [El p d (W h)])).
      { unfold hl_pot, hl_slack, hl_growing. pose proof (hl_tosplit_le (hl_low_max st') (hl_split st') (es ++ [El p d (W h)])). repeat case_decide; lia. }
      wp_assert; [apply bool_decide_eq_true; lia|]. wp_ret.
      iApply "HΦ". rewrite cl_tab. iFrame "HT". iPureIntro. unfold cl_paid. cbn [cl_links cl_st cl_ins]. lia.
    - intros fuel g es ff f arg h cl Φ Hf Hw Hrd. rewrite cl_tab. iIntros "[HR %Hpaid] Ht HΦ". cbn [counted_table tb_remove tb_st]. wp_bind.
      iDestruct (tab_inv with "HR") as %Hi.
      iApply (wp_fact _ (λ r, ∀ es', length es = S (length es') → es' ⊆+ es → hl_pot r.1 es' ≤ hl_pot (cl_st g) es)).
      { intros m v m' Hr es' Hl Hs. by eapply remove_pot. }
      iApply (wp_hl_remove with "HR Ht"); [done..|]. iSplit.
      + iIntros (st' es1 e es2 nx pv Hes Hacc Hno) "HT Hn Ht". iIntros (Hpot). wp_ret. iDestruct "HΦ" as "[HΦ _]".
        iApply ("HΦ" with "[//] [//] [//] [HT] Hn Ht"). rewrite cl_tab. iFrame "HT". iPureIntro. unfold cl_paid in *. cbn [cl_links cl_st cl_ins fst] in *.
        assert (H1 : length es = S (length (es1 ++ es2))) by (rewrite Hes !app_length /=; lia).
        assert (H2 : es1 ++ es2 ⊆+ es) by (rewrite Hes; apply submseteq_app; [done|by apply submseteq_cons]).
        specialize (Hpot _ H1 H2).
        lia.
      + iIntros (Hno) "HT Ht". iIntros (_). wp_ret. iDestruct "HΦ" as "[_ HΦ]". cbn [fst snd]. destruct g as [st a b]. cbn [cl_st cl_links cl_ins].
        iApply ("HΦ" with "[//] [HT] Ht"). by iFrame "HT".
    - intros fuel g es1 e es2 cl Φ Hf. rewrite cl_tab. iIntros "[HR %Hpaid] HΦ". cbn [counted_table tb_remove_existing tb_st]. wp_bind.
      iDestruct (tab_inv with "HR") as %Hi.
      iApply (wp_fact _ (λ r, hl_pot r.1 (es1 ++ es2) ≤ hl_pot (cl_st g) (es1 ++ e :: es2))).
      { intros m v m' Hr. eapply remove_existing_pot; [done| | |done]; [rewrite !app_length /=; lia|].
        apply submseteq_app; [done|]. by apply submseteq_cons. }
      iApply (wp_hl_remove_existing with "HR"); [done|]. iIntros (st' nx pv) "HT Hn". iIntros (Hpot). wp_ret.
      iApply ("HΦ" with "[HT] Hn"). rewrite cl_tab. iFrame "HT". iPureIntro. unfold cl_paid in *. cbn [cl_links cl_st cl_ins fst] in *. lia.
    - intros fuel g es ff f arg h int Φ Hf Hw Hrd. iIntros "[HR %Hpaid] Ht HΦ".
      iApply (wp_hl_search with "HR Ht"); [done..|]. iSplit.
      + iIntros (es1 e es2 Hes Hacc Hno) "HR Ht". iDestruct "HΦ" as "[HΦ _]". iApply ("HΦ" with "[//] [//] [//] [HR] Ht"). by iFrame.
      + iIntros (Hno) "HR Ht". iDestruct "HΦ" as "[_ HΦ]". iApply ("HΦ" with "[//] [HR] Ht"). by iFrame.
    - intros g es h int Φ Hw. iIntros "[HR %Hpaid] HΦ". iApply (wp_hl_bucket with "HR"); [done|].
      iIntros (b pv Hb Hfh) "Hd HR". iApply ("HΦ" with "[//] [//] Hd"). iIntros "Hd". iSplit; [by iApply "HR"|done].
    - intros fuel g es int func I Φ Hf. iIntros "#Hfunc [HR %Hpaid] HI HΦ". iApply (wp_hl_foreach_ro with "Hfunc HR HI"); [done|].
      iIntros (es' Hp) "HR HI". iApply ("HΦ" with "[//] [HR] HI"). by iFrame.
    - intros fuel g es int func I Φ Hf. iIntros "#Hfunc [HR %Hpaid] HI HΦ". iApply (wp_hl_foreach with "Hfunc HR HI"); [done|]. iExact "HΦ".
    - done.
    - intros g es int m. iIntros "[HR _] Hm". by iApply (hl_visits with "HR Hm").
    - intros g es int m. iIntros "[HR _] Hm". by iApply (hl_chains with "HR Hm").
    - intros g es int. iIntros "[HR _]". by iApply hl_memory.
  Defined.
End counted.

Lemma counted_history om K t live m fuel c :
  table_start om K t live m → (size om ≤ fuel)%nat → allowed (tpre om K) tpost (tstate0 om live) c →
  run (tstep counted_table fuel t) None c m ≠ UB.
Proof.
  intros Hs Hf Ha E. pose proof (table_history counted_table (λ _ _, True) om K t live m fuel c) as H.
  assert (H' := H ltac:(intros; by apply counted_proof) Hs Hf Ha). unfold safe in H'. by rewrite E in H'.
Qed.

(** ** The run of the client on both tables *)
Definition cl_plain (g : option counted_lin) : option hashlin := cl_st <$> g.
(** what was paid and not used *)
Definition cl_debt (g : option counted_lin) : Z := match g with Some g => cl_links g - 4 * cl_ins g | None => 0 end.
(** the elements that the operation links again *)
Definition op_links (fuel : nat) (cs : option hashlin) (o : top) (m : mem) (x : Z) : Prop :=
  match o, cs with
  | TInsert p d h, Some st => ∃ st' m', hashlin_insert_w fuel st p d h m = Ok (st', x) m'
  | _, _ => x = 0
  end.

Lemma counted_step fuel t g o m cs1 a m1 x : no_visit o → cl_debt g ≤ 0 →
  tstep hashlin_table fuel t (cl_plain g) o m = Ok (cs1, a) m1 → op_links fuel (cl_plain g) o m x →
  tstep counted_table fuel t g o m = UB ∨
  ∃ g1, tstep counted_table fuel t g o m = Ok (g1, a) m1 ∧ cl_plain g1 = cs1 ∧ cl_debt g1 ≤ 0 ∧
    x + cl_debt g ≤ cl_debt g1 + (if is_update o then 4 else 0).
Proof.
  intros Hb Hd Hr Hx. destruct o; try done.
  - cbn [tstep hashlin_table tb_init] in Hr. inv_bind Hr st m2 E. injection Hr as <- <- <-. right. exists (Some (Counted st 0 0)).
    cbn [tstep counted_table tb_init]. unfold mbind, M_bind. rewrite E. cbn in Hx. split; [done|]. split; [done|]. cbn. lia.
  - destruct g as [g|]; [|done]. cbn [cl_plain fmap option_fmap option_map tstep hashlin_table tb_insert] in Hr. inv_bind Hr st m2 E. injection Hr as <- <- <-.
    destruct Hx as (st' & m' & Hx). destruct (hl_insert_same _ _ _ _ _ _ _ _ E) as (x' & Hx'). cbn [cl_plain fmap option_fmap option_map] in Hx.
    rewrite Hx in Hx'. simplify_eq. cbn [tstep counted_table tb_insert tb_st]. unfold counted_insert, mbind, M_bind. rewrite Hx. unfold massert. cbn [fst snd].
    destruct (bool_decide _) eqn:Eb; [|by left]. apply bool_decide_eq_true in Eb. right. eexists. split; [done|]. split; [done|]. cbn. lia.
  - destruct g as [g|]; [|done]. cbn [cl_plain fmap option_fmap option_map tstep hashlin_table tb_remove tb_st] in Hr. inv_bind Hr r m2 E. inv_bind Hr c m3 E3. injection Hr as <- <- <-.
    right. cbn [tstep counted_table tb_remove tb_st]. unfold mbind, M_bind in *. rewrite E. cbn [fst snd mret M_ret]. rewrite E3. eexists. split; [done|]. cbn in Hx |- *. cbn in Hd. split; [done|]. lia.
  - destruct g as [g|]; [|done]. cbn [cl_plain fmap option_fmap option_map tstep hashlin_table tb_remove_existing] in Hr. inv_bind Hr r m2 E. injection Hr as <- <- <-.
    right. cbn [tstep counted_table tb_remove_existing tb_st]. unfold mbind, M_bind. rewrite E. eexists. split; [done|]. cbn in Hx |- *. cbn in Hd. split; [done|]. lia.
  - destruct g as [g|]; [|done]. cbn [cl_plain fmap option_fmap option_map tstep hashlin_table tb_search tb_st] in Hr. inv_bind Hr r m2 E. inv_bind Hr c m3 E3. injection Hr as <- <- <-.
    right. exists (Some g). cbn [tstep counted_table tb_search tb_st]. unfold mbind, M_bind in *. rewrite E E3. split; [done|]. cbn in Hx |- *. cbn in Hd. split; [done|]. lia.
  - destruct g as [g|]; [|done]. cbn [cl_plain fmap option_fmap option_map tstep hashlin_table tb_bucket tb_st] in Hr. inv_bind Hr r m2 E. inv_bind Hr c m3 E3. injection Hr as <- <- <-.
    right. exists (Some g). cbn [tstep counted_table tb_bucket tb_st]. unfold mbind, M_bind in *. rewrite E E3. split; [done|]. cbn in Hx |- *. cbn in Hd. split; [done|]. lia.
  - destruct g as [g|]; [|done]. injection Hr as <- <- <-. right. exists (Some g). split; [done|]. cbn in Hx |- *. cbn in Hd. split; [done|]. lia.
  - destruct g as [g|]; [|done]. cbn [cl_plain fmap option_fmap option_map tstep hashlin_table tb_done] in Hr. inv_bind Hr u m2 E. injection Hr as <- <- <-.
    right. cbn [tstep counted_table tb_done tb_st]. unfold mbind, M_bind. rewrite E. exists None. split; [done|]. cbn in Hx |- *. cbn in Hd. split; [done|]. lia.
Qed.

Lemma counted_run om live fuel t c : ∀ g m l m' tr0, every no_visit c → cl_debt g ≤ 0 →
  (∀ n cs1 tr m1 cs2 o a m2, run (tstep hashlin_table fuel t) (cl_plain g) (trunc n c) m = Ok (cs1, tr) m1 →
    run (tstep hashlin_table fuel t) (cl_plain g) (trunc (S n) c) m = Ok (cs2, tr ++ [(o, a)]) m2 →
    ∃ log x b, logged (tstep hashlin_table fuel t cs1 o) m1 log (Ok (cs2, a) m2) ∧ op_links fuel cs1 o m1 x ∧
      walks hashlin_table om live (tr0 ++ tr) cs1 o b ∧ Z.of_nat (length log) ≤ 10 + 7 * op_work cs1 cs2 + 9 * x + 3 * b) →
  run_all (tstep hashlin_table fuel t) (cl_plain g) c m = Ok l m' →
  run (tstep counted_table fuel t) g c m ≠ UB →
  ∃ log n, logged (run (tstep hashlin_table fuel t) (cl_plain g) c) m log (Ok (struct_after (cl_plain g) l, l.*1) m') ∧
    walks_all hashlin_table om live tr0 (cl_plain g) l n ∧
    Z.of_nat (length log) + 9 * cl_debt g ≤ 10 * Z.of_nat (length l) + 7 * total_work (cl_plain g) l + 36 * updates l + 3 * n.
Proof.
  induction c as [|o k IH]; intros g m l m' tr0 Hn Hd Hb Hr Hub; cbn [run_all] in Hr.
  - injection Hr as <- <-. exists [], 0. split; [apply lg_ret|]. split; [constructor|]. cbn [length total_work]. change (updates []) with 0. lia.
  - inv_bind Hr r m1 E1. inv_bind Hr l' m2 E2. injection Hr as <- <-. destruct r as [cs1 a]. cbn [fst snd] in *. destruct Hn as [Ho Hn].
    destruct (Hb 0%nat (cl_plain g) [] m cs1 o a m1) as (log1 & x & b & L1 & Hx & Hw & L2); [done| |].
    { cbn [trunc run]. unfold mbind, M_bind. rewrite E1. done. }
    destruct (counted_step _ _ _ _ _ _ _ _ _ Ho Hd E1 Hx) as [Eu|(g1 & Eg & <- & Hd1 & Hle)].
    { destruct Hub. cbn [run]. unfold mbind, M_bind. by rewrite Eu. }
    destruct (IH a g1 m1 l' m2 (tr0 ++ [(o, a)])) as (log2 & n & L3 & Hws & L4); [by apply Hn|done| |done| |].
    { intros n cs2 tr m3 cs3 o' a' m4 H1 H2. rewrite -app_assoc. apply (Hb (S n) cs2 ((o, a) :: tr) m3 cs3 o' a' m4).
      - change (trunc (S n) (Do o k)) with (Do o (λ a, trunc n (k a))). cbn [run]. unfold mbind, M_bind. rewrite E1. cbn [fst snd]. by rewrite H1.
      - change (trunc (S (S n)) (Do o k)) with (Do o (λ a, trunc (S n) (k a))). cbn [run]. unfold mbind, M_bind. rewrite E1. cbn [fst snd]. by rewrite H2. }
    { intros Eu. destruct Hub. cbn [run]. unfold mbind, M_bind. rewrite Eg. cbn [fst snd]. by rewrite Eu. }
    exists (log1 ++ log2 ++ []), (b + n). split; [|split].
    + cbn [run]. eapply lg_bind; [exact L1|]. cbn [fst snd]. eapply lg_bind; [exact L3|]. cbn [fst snd struct_after]. apply lg_ret.
    + rewrite app_nil_r in Hw. by constructor.
    + rewrite app_nil_r app_length. cbn [total_work length fst snd].
      assert (Hup : updates ((o, a, cl_plain g1) :: l') = (if is_update o then 1 else 0) + updates l').
      { unfold updates. rewrite filter_cons. cbn [fst]. destruct (decide (is_update o = true)) as [->|Hu]; cbn [length]; [rewrite Nat2Z.inj_succ -Z.add_1_l; reflexivity|]. by destruct (is_update o). }
      rewrite Hup. destruct (is_update o); lia.
Qed.

Lemma hl_history_walks om K t live m fuel c :
  table_start om K t live m → (size om ≤ fuel)%nat → allowed (tpre om K) tpost (tstate0 om live) c → every tlooks c → every no_visit c →
  safe (run_all (tstep hashlin_table fuel t) None c m) (λ l m',
    ∃ log n, logged (run (tstep hashlin_table fuel t) None c) m log (Ok (struct_after None l, l.*1) m') ∧
      walks_all hashlin_table om live [] None l n ∧ Z.of_nat (length log) ≤ 102 * Z.of_nat (length l) + 3 * n).
Proof.
  intros Hs Hf Ha Hlk Hn. pose proof (hashlin_amortised om K t live m fuel c Hs Hf Ha) as Ham. unfold safe in *.
  destruct (run_all (tstep hashlin_table fuel t) None c m) as [l m'| | |] eqn:Hl; try done.
  destruct (counted_run om live fuel t c None m l m' []) as (log & w & L1 & Hws & L2); [done|done| |exact Hl|by eapply counted_history|].
  { cbn [cl_plain fmap option_fmap option_map app]. intros n cs tr m1 cs2 o a m2 H1 H2.
    assert (Ho : no_visit o).
    { pose proof (run_every _ _ _ _ _ _ _ _ (every_trunc _ (S n) _ Hn) H2) as H. apply Forall_app in H as [_ H]. by apply Forall_cons in H as [? _]. }
    destruct (run_last_check (tstep hashlin_table fuel t) (tstep hashlin_table fuel t) ltac:(by left) _ _ _ _ _ _ _ _ _ _ _ H1 H2 ltac:(by rewrite H2)) as [H4 _].
    assert (∃ x, op_links fuel cs o m1 x) as (x & Hx).
    { destruct o; try (by exists 0). destruct cs as [st|]; [|by exists 0]. cbn [tstep hashlin_table tb_insert tb_st] in H4. inv_bind H4 st2 m6 E.
      destruct (hl_insert_same _ _ _ _ _ _ _ _ E) as (x & Hx). exists x. cbn. eauto. }
    assert (∃ log, logged (tstep hashlin_table fuel t cs o) m1 log (Ok (cs2, a) m2) ∧
      table_within hashlin_table 0 (9 + 3 * op_work cs cs2 + 9 * x) (10 + 7 * op_work cs cs2) om live tr cs o (Z.of_nat (length log))) as (log & L1 & L2).
    { apply (table_step_accesses hashlin_table hashlin_inv hashlin_history om K t live m fuel n c cs tr m1 cs2 o a m2); try done;
        cbn [hashlin_table tb_bucket tb_done tb_init tb_insert tb_remove_existing tb_remove tb_search tb_st].
      - apply am_hl_bucket.
      - apply hl_bucket_mem.
      - apply am_hl_done.
      - intros k st' n' -> _ E. exists []. split; [exact (lg_at_most0 _ _ _ _ am_hl_init E)|done].
      - intros p d h st st' n0 n' -> -> -> Hi _ E. destruct (hl_insert_accesses _ _ _ _ _ _ _ _ _ Hi E) as (x' & log & X1 & X2 & X3 & X4).
        exists log. split; [done|]. cbn [op_links] in Hx. destruct Hx as (st2 & m5 & Hx). rewrite X1 in Hx. simplify_eq. cbn [op_work]. lia.
      - intros st n0 p r -> Hi E ->. exact (hl_remove_existing_accesses _ _ _ _ _ _ Hi E).
      - intros st n0 k f t0 a0 h xs r m0 -> Hi Hlk' Hw E ->. exact (hl_remove_accesses _ _ _ _ _ _ _ _ _ _ _ _ Hi Hlk' Hw E).
      - intros st k f t0 a0 h xs r m0 Hlk' Hw E. exact (hl_search_accesses _ _ _ _ _ _ _ _ _ _ _ Hlk' Hw E).
    }
    assert (0 ≤ op_work cs cs2) by (unfold op_work, hl_moves; destruct cs, cs2; lia).
    destruct o; try done; cbn [table_within] in L2; cbn [op_links] in Hx;
      try (exists log, x, 0; split; [done|]; split; [done|]; split; [done|]; lia);
      destruct L2 as (st & es & Hcs & Hes & L2);
      lazymatch type of L2 with context [in_bucket ?T st es ?h] =>
        assert (0 ≤ in_bucket T st es h) by apply Nat2Z.is_nonneg; exists log, x, (in_bucket T st es h)
      end; (split; [done|]; split; [done|]; split; [by exists st, es|]; lia). }
  exists log, w. split; [done|]. split; [done|]. cbn [cl_plain cl_debt fmap option_fmap option_map] in L2.
  assert (updates l ≤ Z.of_nat (length l)) by (unfold updates; apply inj_le, filter_length).
  change (tb_st hashlin_table) with hashlin in *. lia.
Qed.

Lemma walks_by_node T om live tr cs l n : walks_all T om live tr cs l n → Forall (λ x, by_node x.1) l.*1 → n = 0.
Proof.
  induction 1 as [|tr cs o a cs' l b n Hw Hws IH]; [done|]. cbn [fmap list_fmap fst]. intros [Ho HF]%Forall_cons. rewrite IH; [|done].
  destruct o; try done; cbn in Hw; lia.
Qed.
Lemma every_impl {op out} (P Q : op → Prop) (c : prog op out) : (∀ o, P o → Q o) → every P c → every Q c.
Proof. intros HPQ. induction c as [|o k IH]; [done|]. intros [H1 H2]. split; [by apply HPQ|]. intros a. by apply IH. Qed.
Lemma hl_history_accesses om K t live m fuel c :
  table_start om K t live m → (size om ≤ fuel)%nat → allowed (tpre om K) tpost (tstate0 om live) c → every by_node c →
  safe (run (tstep hashlin_table fuel t) None c m) (λ r m',
    ∃ log, logged (run (tstep hashlin_table fuel t) None c) m log (Ok r m') ∧ (length log ≤ 102 * length r.2)%nat).
Proof.
  intros Hs Hf Ha Hn. pose proof (hashlin_history om K t live m fuel c Hs Hf Ha) as Hh.
  pose proof (hl_history_walks om K t live m fuel c Hs Hf Ha) as H. unfold safe in *.
  destruct (run (tstep hashlin_table fuel t) None c m) as [r m'| | |] eqn:Er; try done. clear Hh.
  destruct (run_all_ok _ _ _ _ _ _ Er) as (l & Hl & ->). rewrite Hl in H.
  destruct H as (log & n & L1 & L2 & L3); [eapply every_impl; [|exact Hn]; by intros []..|].
  exists log. split; [done|]. cbn [snd]. rewrite fmap_length.
  rewrite (walks_by_node _ _ _ _ _ _ _ L2) in L3; [lia|]. exact (run_every _ _ _ _ _ _ _ _ Hn Er).
Qed.

(** ** The dynamic hashtable, with searches *)
Lemma run_walked T fuel t om live (b : option (tb_st T) → option (tb_st T) → Z) c : ∀ cs m l m' tr0,
  (∀ n cs1 tr m1 cs2 o a m2, run (tstep T fuel t) cs (trunc n c) m = Ok (cs1, tr) m1 → run (tstep T fuel t) cs (trunc (S n) c) m = Ok (cs2, tr ++ [(o, a)]) m2 →
    ∃ log w, logged (tstep T fuel t cs1 o) m1 log (Ok (cs2, a) m2) ∧ walks T om live (tr0 ++ tr) cs1 o w ∧ Z.of_nat (length log) ≤ b cs1 cs2 + 3 * w) →
  run_all (tstep T fuel t) cs c m = Ok l m' →
  ∃ log n, logged (run (tstep T fuel t) cs c) m log (Ok (struct_after cs l, l.*1) m') ∧ walks_all T om live tr0 cs l n ∧
    Z.of_nat (length log) ≤ sum_over (λ cs _ cs', b cs cs') cs l + 3 * n.
Proof.
  induction c as [|o k IH]; intros cs m l m' tr0 Hb Hr; cbn [run_all] in Hr.
  - injection Hr as <- <-. exists [], 0. split; [apply lg_ret|]. split; [constructor|done].
  - inv_bind Hr r m1 E1. inv_bind Hr l' m2 E2. injection Hr as <- <-. destruct r as [cs1 a]. cbn [fst snd] in *.
    destruct (Hb 0%nat cs [] m cs1 o a m1) as (log1 & w & L1 & Hw & L2); [done| |].
    { cbn [trunc run]. unfold mbind, M_bind. rewrite E1. done. }
    destruct (IH a cs1 m1 l' m2 (tr0 ++ [(o, a)])) as (log2 & n & L3 & Hws & L4); [|done|].
    { intros n cs2 tr m3 cs3 o' a' m4 H1 H2. rewrite -app_assoc. apply (Hb (S n) cs2 ((o, a) :: tr) m3 cs3 o' a' m4).
      - change (trunc (S n) (Do o k)) with (Do o (λ a, trunc n (k a))). cbn [run]. unfold mbind, M_bind. rewrite E1. cbn [fst snd]. by rewrite H1.
      - change (trunc (S (S n)) (Do o k)) with (Do o (λ a, trunc (S n) (k a))). cbn [run]. unfold mbind, M_bind. rewrite E1. cbn [fst snd]. by rewrite H2. }
    exists (log1 ++ log2 ++ []), (w + n). split; [|split].
    + cbn [run]. eapply lg_bind; [exact L1|]. cbn [fst snd]. eapply lg_bind; [exact L3|]. cbn [fst snd struct_after]. apply lg_ret.
    + rewrite app_nil_r in Hw. by constructor.
    + rewrite app_nil_r app_length. cbn [sum_over fst snd]. lia.
Qed.
Lemma not_freed_visit s tr s' : correct tpost s tr s' → Forall (λ x, no_visit x.1) tr → ts_tab s ≠ TabFreed → ts_tab s' ≠ TabFreed.
Proof.
  induction 1 as [|s o a s1 tr s2 Hp Hc IH]; [done|]. intros [Hb HF]%Forall_cons Hs. apply IH; [done|]. clear IH.
  destruct o; try done; cbn [tpost] in Hp; naive_solver.
Qed.
Lemma hd_history_walks om K t live m fuel c :
  table_start om K t live m → (size om ≤ fuel)%nat → allowed (tpre om K) tpost (tstate0 om live) c → every tlooks c → every no_visit c →
  safe (run_all (tstep hashdyn_table fuel t) None c m) (λ l m',
    ∃ log n, logged (run (tstep hashdyn_table fuel t) None c) m log (Ok (struct_after None l, l.*1) m') ∧
      walks_all hashdyn_table om live [] None l n ∧ Z.of_nat (length log) ≤ 64 * Z.of_nat (length l) + 3 * n).
Proof.
  intros Hs Hf Ha Hlk Hn. pose proof (hashdyn_amortised om K t live m fuel c Hs Hf Ha) as Ham. unfold safe in *.
  destruct (run_all (tstep hashdyn_table fuel t) None c m) as [l m'| | |] eqn:Hl; try done.
  destruct (run_walked hashdyn_table fuel t om live (λ cs cs', 10 + 9 * hd_op_work cs cs') c None m l m' []) as (log & w & L1 & Hws & L2); [|done|].
  { cbn [app]. intros n cs1 tr m1 cs2 o a m2 H1 H2.
    assert (Ho : no_visit o).
    { pose proof (run_every _ _ _ _ _ _ _ _ (every_trunc _ (S n) _ Hn) H2) as H. apply Forall_app in H as [_ H]. by apply Forall_cons in H as [? _]. }
    assert (Hwork : 0 ≤ hd_op_work cs1 cs2).
    { pose proof (hashdyn_history om K t live m fuel (trunc (S n) c) Hs Hf (trunc_allowed _ _ _ _ _ Ha)) as He. rewrite H2 in He.
      destruct He as [(s & int & Hc & _ & _ & Htab) _]. cbn [fst snd] in *.
      assert (ts_tab s ≠ TabFreed) as Hfr.
      { apply (not_freed_visit _ _ _ Hc); [|done]. exact (run_every _ _ _ _ _ _ _ _ (every_trunc _ (S n) _ Hn) H2). }
      destruct (ts_tab s) as [|es|]; [destruct Htab as [-> _]; by destruct cs1| |done]. destruct Htab as (st & -> & (_ & _ & _ & _ & _ & Hcount) & _).
      destruct cs1 as [st1|]; [|done]. cbn [hd_op_work]. unfold hd_work. case_decide; lia. }
    destruct (hd_step_accesses om K t live m fuel n c cs1 tr m1 cs2 o a m2 Hs Hf Ha Hlk Ho H1 H2) as (log & L1 & L2).
    destruct o; try done; cbn [hashdyn_within] in L2;
      try (exists log, 0; split; [done|]; split; [done|]; lia);
      destruct L2 as (st & es & Hcs & Hes & L2);
      lazymatch type of L2 with context [same_bucket st es ?h] =>
        change (same_bucket st es h) with (in_bucket hashdyn_table st es h) in L2;
        assert (0 ≤ in_bucket hashdyn_table st es h) by apply Nat2Z.is_nonneg; exists log, (in_bucket hashdyn_table st es h)
      end; (split; [done|]; split; [by exists st, es|]; lia). }
  exists log, w. split; [done|]. split; [done|].
  assert (Hsum : ∀ cs (l : hd_trace), sum_over (λ cs _ cs', 10 + 9 * hd_op_work cs cs') cs l = 10 * Z.of_nat (length l) + 9 * hd_total_work cs l).
  { clear. intros cs l. revert cs. induction l as [|x l IH]; intros cs; cbn [sum_over hd_total_work length]; [done|]. rewrite IH. lia. }
  assert (hd_updates l ≤ Z.of_nat (length l)) by (unfold hd_updates; apply inj_le, filter_length).
  change (tb_st hashdyn_table) with hashdyn in *. rewrite Hsum in L2. lia.
Qed.
