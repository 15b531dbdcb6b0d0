(** * The number of accesses of the insertion in a tree and of the removal. *)
From Verif Require Export CostCount TreeWork CostSort.
From Verif Require Import RunAll TreeHist TreeProps Wp.
Global Open Scope Z_scope.

Notation counted := (counted 19).

Lemma am_height p : at_most 1 (tree_height p). Proof. unfold tree_height. am. Qed.
Global Hint Resolve am_height : am.
Lemma am_delta p : at_most 4 (tree_delta p). Proof. unfold tree_delta. am. Qed.
Lemma am_index_max p q : at_most 3 (tree_index_max p q). Proof. unfold tree_index_max. am. Qed.
Global Hint Resolve am_delta am_index_max : am.

Lemma ct_rotate_left b bw p : (∀ q, counted (-4) (b q) (bw q)) → counted (-4) (tree_rotate_left b p) (tree_rotate_left_w bw p).
Proof.
  intros Hb. unfold tree_rotate_left, tree_rotate_left_w. do 3 ct. eapply ct_bind; [apply Hb|]. intros w x. cbn [fst snd]. ct.
  eapply (ct_tail _ _ _ _ _ (λ r, x + r.2)); [apply Hb|]. intros. cbn [snd]. lia.
Qed.
Lemma ct_rotate_right b bw p : (∀ q, counted (-4) (b q) (bw q)) → counted (-4) (tree_rotate_right b p) (tree_rotate_right_w bw p).
Proof.
  intros Hb. unfold tree_rotate_right, tree_rotate_right_w. do 3 ct. eapply ct_bind; [apply Hb|]. intros w x. cbn [fst snd]. ct.
  eapply (ct_tail _ _ _ _ _ (λ r, x + r.2)); [apply Hb|]. intros. cbn [snd]. lia.
Qed.
Lemma ct_balance fuel : ∀ p, counted (-4) (tree_balance fuel p) (tree_balance_w fuel p).
Proof.
  induction fuel as [|fuel IH]; intros p; [apply ct_fuel|]. cbn [tree_balance tree_balance_w]. ct.
  destruct (decide (_ < -1)); [|destruct (decide (_ > 1))].
  - ct. ct. eapply (ct_bind _ _ 0).
    + case_decide; [|apply ct_ret; lia]. ct. eapply (ct_last _ _ _ _ _ 1); [by apply ct_rotate_right|]. intros ? ?.
      split; [eauto with am nocore|lia].
    + intros u x. cbn [fst snd]. eapply (ct_tail _ _ _ _ _ (λ r, 1 + x + r.2)); [by apply ct_rotate_left|].
      intros. cbn [snd]. lia.
  - ct. ct. eapply (ct_bind _ _ 0).
    + case_decide; [|apply ct_ret; lia]. ct. eapply (ct_last _ _ _ _ _ 1); [by apply ct_rotate_left|]. intros ? ?.
      split; [eauto with am nocore|lia].
    + intros u x. cbn [fst snd]. eapply (ct_tail _ _ _ _ _ (λ r, 1 + x + r.2)); [by apply ct_rotate_right|].
      intros. cbn [snd]. lia.
  - do 7 ct. apply ct_ret. lia.
Qed.
Lemma ct_move_right bf fuel : ∀ p q, counted 0 (tree_move_right bf fuel p q) (tree_move_right_w bf fuel p q).
Proof.
  induction fuel as [|fuel IH]; intros p q; cbn [tree_move_right tree_move_right_w];
    (destruct (decide (p = null)); [apply ct_ret; lia|]); [apply ct_fuel|].
  ct. eapply ct_bind; [apply IH|]. intros w x. cbn [fst snd]. ct.
  eapply (ct_tail _ _ _ _ _ (λ r, x + r.2)); [apply ct_balance|]. intros. cbn [snd]. lia.
Qed.
Lemma ct_insert_node bf cmp fuel : (∀ a b, at_most 0 (cmp a b)) → ∀ p q,
  counted 2 (tree_insert_node bf fuel cmp p q) (tree_insert_node_w bf fuel cmp p q).
Proof.
  intros Hcmp. induction fuel as [|fuel IH]; intros p q; cbn [tree_insert_node tree_insert_node_w];
    (destruct (decide (p = null)); [apply ct_ret; lia|]); [apply ct_fuel|].
  ct. ct. eapply ct_step; [apply Hcmp|intros c]. case_decide; [|case_decide]; [| |apply ct_ret; lia];
    (ct; eapply ct_bind; [apply IH|]; intros w x; cbn [fst snd]; ct; eapply ct_bind; [apply ct_balance|]; intros w' x'; cbn [fst snd];
     apply ct_ret; lia).
Qed.
Lemma ct_remove_node bf cmp fuel : (∀ a b, at_most 0 (cmp a b)) → ∀ p d f,
  counted 3 (tree_remove_node bf fuel cmp p d f) (tree_remove_node_w bf fuel cmp p d f).
Proof.
  intros Hcmp. induction fuel as [|fuel IH]; intros p d f; cbn [tree_remove_node tree_remove_node_w];
    (destruct (decide (p = null)); [apply ct_ret; lia|]); [apply ct_fuel|].
  ct. eapply ct_step; [apply Hcmp|intros c]. case_decide; [|case_decide].
  1-2: ct; eapply ct_bind; [apply IH|]; intros w x; cbn [fst snd]; ct; eapply ct_bind; [apply ct_balance|]; intros w' x'; cbn [fst snd];
     apply ct_ret; lia.
  ct. ct. eapply ct_bind; [apply ct_move_right|]. intros w x. cbn [fst snd]. apply ct_ret. lia.
Qed.
Lemma ct_insert fuel st p d : (∀ a b, at_most 0 (tr_cmp st a b)) → counted 7 (tree_insert fuel st p d) (tree_insert_w fuel st p d).
Proof.
  intros Hcmp. unfold tree_insert, tree_insert_w. do 4 ct. eapply ct_bind; [by apply ct_insert_node|]. intros w x. cbn [fst snd].
  ct. apply ct_ret. lia.
Qed.
Lemma ct_remove fuel st d : (∀ a b, at_most 0 (tr_cmp st a b)) → counted 4 (tree_remove fuel st d) (tree_remove_w fuel st d).
Proof.
  intros Hcmp. unfold tree_remove, tree_remove_w. eapply ct_bind; [by apply ct_remove_node|]. intros w x. cbn [fst snd].
  case_decide; [apply ct_ret; lia|]. ct. apply ct_ret. lia.
Qed.
Lemma ct_remove_existing fuel st p : (∀ a b, at_most 0 (tr_cmp st a b)) →
  counted 5 (tree_remove_existing fuel st p) (tree_remove_existing_w fuel st p).
Proof.
  intros Hcmp. unfold tree_remove_existing, tree_remove_existing_w. ct. eapply ct_bind; [by apply ct_remove|]. intros w x. cbn [fst snd].
  ct. destruct w. apply ct_ret. lia.
Qed.

Lemma tree_update_accesses fuel st : (∀ a b, at_most 0 (tr_cmp st a b)) →
  (∀ p d m v m', tree_insert fuel st p d m = Ok v m' → ∃ x log, tree_insert_w fuel st p d m = Ok (v, x) m' ∧
    logged (tree_insert fuel st p d) m log (Ok v m') ∧ Z.of_nat (length log) ≤ 7 + 19 * x) ∧
  (∀ d m v m', tree_remove fuel st d m = Ok v m' → ∃ x log, tree_remove_w fuel st d m = Ok (v, x) m' ∧
    logged (tree_remove fuel st d) m log (Ok v m') ∧ Z.of_nat (length log) ≤ 4 + 19 * x) ∧
  (∀ p m v m', tree_remove_existing fuel st p m = Ok v m' → ∃ x log, tree_remove_existing_w fuel st p m = Ok (v, x) m' ∧
    logged (tree_remove_existing fuel st p) m log (Ok v m') ∧ Z.of_nat (length log) ≤ 5 + 19 * x).
Proof.
  assert (Hg : ∀ n A (c : M A) cw m v m', counted n c cw → c m = Ok v m' → ∃ x log, cw m = Ok (v, x) m' ∧
    logged c m log (Ok v m') ∧ Z.of_nat (length log) ≤ n + 19 * x).
  { intros n A c cw m v m' Hc E. destruct (Hc m) as (l & H1 & H2). destruct (H2 _ _ E) as (x & H3 & H4). exists x, l. by rewrite -E. }
  intros Hcmp. repeat split; intros; (eapply Hg; [|done]).
  - by apply ct_insert.
  - by apply ct_remove.
  - by apply ct_remove_existing.
Qed.

(** ** In a history *)
Lemma tree_ready om K D t live m fuel c :
  tree_start om K t live m → (size om + 4 ≤ fuel)%nat →
  allowed (trpre om K D) trpost (trstate0 om live) c →
  succeeds (run (trstep fuel t) None c m) (λ r m', m' !! t = Some (Tape []) ∧
    ∀ st, r.1 = Some st → ∃ f, tr_cmp st = tape_cmp t f).
Proof.
  intros (Hok & Ht & (h & Hh & <-) & Hap) Hf Ha. apply allowed_both in Ha.
  apply (client_succeeds _ 4 om [HCTL; t]); [done| |].
  { intros a [->|[->|Hin]%elem_of_cons]%elem_of_cons; [eauto..|]. by apply elem_of_nil in Hin. }
  intros HG _ HF. apply separate_frame in Hap. rewrite -HF in Hap. iIntros "(Hc & Htt & _) Hpool".
  iApply (wp_run _ (trpre om K D) (trboth om K D) (TRel om t D True) with "[Hc Htt Hpool]").
  - intros cs s o Φ Hpre. iIntros "HR HΦ". iApply (wp_trstep with "HR"); [eauto|done|done|done|done|].
    iIntros (cs' a s' Hp) "HR". iApply ("HΦ" with "[] HR"). done.
  - exact Ha.
  - rewrite /TRel /=. iFrame "Hpool". iSplitL "Hc"; [|iSplitL; [|done]].
    + iDestruct "Hc" as (c0 Hc0) "Hc". simplify_eq. iExists (hc_oracle h), (hc_next h). by destruct h.
    + iDestruct "Htt" as (c0 Hc0) "Htt". by simplify_eq.
  - iIntros (cs tr s' Hcor) "(_ & _ & Ht & HT)". iIntros (m') "Hm". iDestruct (memI_lookup with "Hm Ht") as %Hl.
    destruct (ts_tree s') as [[c0 xs]|]; [|iDestruct "HT" as %->; done].
    iDestruct "HT" as (T ff (-> & _)) "_". iPureIntro. split; [done|]. intros st [= <-]. by eexists.
Qed.

Fixpoint lift_prog (c : prog trop trout) : prog trop (trout * Z) :=
  match c with Done => Done | Do o k => Do o (λ a, lift_prog (k a.1)) end.
Lemma lift_allowed pre post (s : trstate) c : allowed pre post s c →
  allowed pre (λ s o (a : trout * Z) s', post s o a.1 s') s (lift_prog c).
Proof. revert s. induction c as [|o k IH]; intros s; [done|]. intros [Hp Ha]. split; [done|]. intros [a x] s' Hs. by apply IH, Ha. Qed.

Lemma run_last fuel t n : ∀ c cs m cs1 tr m1 cs2 o a m2,
  run (trstep fuel t) cs (trunc n c) m = Ok (cs1, tr) m1 →
  run (trstep fuel t) cs (trunc (S n) c) m = Ok (cs2, tr ++ [(o, a)]) m2 →
  trstep fuel t cs1 o m1 = Ok (cs2, a) m2 ∧
  ∃ tr' x, run (trstep_n fuel t) cs (lift_prog (trunc (S n) c)) m = Ok (cs2, tr' ++ [(o, (a, x))]) m2 ∧ tr'.*1 = tr.*1 ∧
    trstep_w fuel t cs1 o m1 = Ok (cs2, a, x) m2.
Proof.
  assert (Hw : ∀ cs o m cs2 a m2, trstep fuel t cs o m = Ok (cs2, a) m2 → ∃ x,
    trstep_w fuel t cs o m = Ok (cs2, a, x) m2 ∧ trstep_n fuel t cs o m = Ok (cs2, (a, x)) m2).
  { intros cs o m cs2 a m2. rewrite (trstep_erase fuel t cs o m). unfold trstep_n, mbind, M_bind.
    destruct (trstep_w fuel t cs o m) as [[[cs' a'] x] m'| | |]; [|done..]. intros [= -> -> ->]. by exists x. }
  induction n as [|n IH]; intros c cs m cs1 tr m1 cs2 o a m2.
  - cbn. intros [= <- <- <-]. destruct c as [|o' k]; [done|]. cbn. unfold mbind, M_bind.
    destruct (trstep fuel t cs o' m) as [[cs' a'] m'| | |] eqn:E; [|done..]. cbn. intros [= <- <- <- <-].
    split; [done|]. destruct (Hw _ _ _ _ _ _ E) as (x & H1 & H2). exists [], x. cbn. by rewrite H2.
  - destruct c as [|o' k].
    + cbn. intros [= <- <- <-]. by intros [= ].
    + change (trunc (S n) (Do o' k)) with (Do o' (λ a, trunc n (k a))).
      change (trunc (S (S n)) (Do o' k)) with (Do o' (λ a, trunc (S n) (k a))).
      cbn [run lift_prog]. unfold mbind, M_bind.
      destruct (trstep fuel t cs o' m) as [[cs' a'] m'| | |] eqn:E; [|done..]. cbn [fst snd].
      destruct (run (trstep fuel t) cs' (trunc n (k a')) m') as [[cs1' tr1] m1'| | |] eqn:E1; [|done..].
      cbn [fst snd]. intros [= <- <- <-].
      destruct (run (trstep fuel t) cs' (trunc (S n) (k a')) m') as [[cs2' tr2] m2'| | |] eqn:E2; [|done..].
      cbn [fst snd]. intros [= <- -> <-]. destruct (IH _ _ _ _ _ _ _ _ _ _ E1 E2) as (H1 & tr' & x & H2 & H3 & H4).
      split; [done|]. destruct (Hw _ _ _ _ _ _ E) as (x' & H5 & H6). exists ((o', (a', x')) :: tr'), x.
      rewrite H6. cbn [fst snd]. rewrite H2. cbn. by rewrite H3.
Qed.

Lemma pd_search_node t f fuel d : ∀ p, paid 1 t 0 (tree_search_node fuel (tape_cmp t f) p d).
Proof.
  induction fuel as [|fuel IH]; intros p; cbn [tree_search_node].
  - case_match; [apply pd_ret|apply pd_fuel].
  - pd.
Qed.
Lemma pd_foreach_arg t arg fuel : ∀ p, paid 2 t 0 (tree_foreach_node fuel p (visit_arg t arg)).
Proof.
  induction fuel as [|fuel IH]; intros p; cbn [tree_foreach_node].
  - case_match; [apply pd_ret|apply pd_fuel].
  - unfold visit_arg. pd.
Qed.

(** The same when the callback frees the elements: a tape that free takes away does
    not come back. *)
Definition wpaid (w t n : Z) {A} (c : M A) : Prop :=
  ∀ m, (∀ ws, m !! t = Some (Tape ws) → ∃ l, logged c m l (c m) ∧
      ∀ v m' ws', c m = Ok v m' → m' !! t = Some (Tape ws') →
        Z.of_nat (length l) + w * Z.of_nat (length ws) ≤ n + w * Z.of_nat (length ws')) ∧
    ((∀ ws, m !! t ≠ Some (Tape ws)) → (∃ l, logged c m l (c m)) ∧ ∀ v m' ws', c m = Ok v m' → m' !! t ≠ Some (Tape ws')).
Lemma wd_bind {A B} w t n n1 n2 (c : M A) (k : A → M B) :
  wpaid w t n1 c → (∀ v, wpaid w t n2 (k v)) → n1 + n2 ≤ n → wpaid w t n (c ≫= k).
Proof.
  intros Hc Hk Hn m.
  assert (Hlog : ∀ l, logged c m l (c m) → ∃ l', logged (c ≫= k) m (l ++ l') ((c ≫= k) m) ∧
    match c m with Ok v m' => logged (k v) m' l' (k v m') ∧
      ∀ ws, m' !! t = Some (Tape ws) → ∀ v' m'' ws', k v m' = Ok v' m'' → m'' !! t = Some (Tape ws') →
        Z.of_nat (length l') + w * Z.of_nat (length ws) ≤ n2 + w * Z.of_nat (length ws') | _ => l' = [] end).
  { intros l Hl. unfold mbind, M_bind. destruct (c m) as [v m'| |e|] eqn:E.
    - destruct (Hk v m') as [H1 H2]. destruct (m' !! t) as [[]|] eqn:Et.
      4: { destruct (H1 _ eq_refl) as (l' & L1 & L2). exists l'. split; [by eapply lg_bind|]. split; [done|].
           intros ws0 [= <-] v' m'' ws' E1 E2. by eapply L2. }
      all: destruct H2 as [[l' L1] _]; [done|]; exists l'; (split; [by eapply lg_bind|]); by split.
    - exists []. rewrite app_nil_r. by split; [apply lg_bind_ub|].
    - exists []. rewrite app_nil_r. by split; [apply lg_bind_env|].
    - exists []. rewrite app_nil_r. by split; [apply lg_bind_fuel|]. }
  destruct (Hc m) as [H1 H2]. split.
  - intros ws Hm. destruct (H1 _ Hm) as (l & L1 & L2). destruct (Hlog _ L1) as (l' & L3 & L4). exists (l ++ l'). split; [done|].
    intros v m' ws' E Hm'. unfold mbind, M_bind in E. destruct (c m) as [v1 m1| | |] eqn:Ec; [|done..]. destruct L4 as [L4 L5].
    destruct (Hk v1 m1) as [_ K2]. rewrite app_length.
    destruct (m1 !! t) as [[| | |ws1|]|] eqn:Et; try (exfalso; destruct K2 as [_ K2]; [done|]; by eapply K2).
    specialize (L2 _ _ _ eq_refl Et). specialize (L5 _ eq_refl _ _ _ E Hm'). lia.
  - intros Hm. destruct (H2 Hm) as [[l L1] L2]. destruct (Hlog _ L1) as (l' & L3 & _). split; [by eexists|].
    intros v m' ws' E. unfold mbind, M_bind in E. destruct (c m) as [v1 m1| | |] eqn:Ec; [|done..].
    destruct (Hk v1 m1) as [_ K2]. destruct K2 as [_ K2]; [intros ws1; by eapply L2|]. by eapply K2.
Qed.
Lemma wd_ret {A} w t (v : A) : wpaid w t 0 (mret v).
Proof.
  intros m. split.
  - intros ws Hm. exists []. split; [constructor|]. intros v' m' ws' [= <- <-] Hm'. simplify_eq. cbn. lia.
  - intros Hm. split; [exists []; constructor|]. intros v' m' ws' [= <- <-]. apply Hm.
Qed.
Lemma wd_fuel {A} w t n : wpaid w t n (@fuel_out A).
Proof. intros m. split; [intros ws Hm; exists []; split; [constructor|done]|intros Hm; split; [exists []; constructor|done]]. Qed.
Lemma wd_load w t a : wpaid w t 1 (load a).
Proof.
  intros m. split.
  - intros ws Hm. exists [AWord a]. split; [constructor|]. intros v' m' ws'. unfold load. destruct (m !! a) as [[]|]; try done.
    intros [= <- <-] Hm'. simplify_eq. cbn. lia.
  - intros Hm. split; [exists [AWord a]; constructor|]. intros v' m' ws'. unfold load. destruct (m !! a) as [[]|]; try done.
    intros [= <- <-]. apply Hm.
Qed.
Lemma wd_push w t a : wpaid w t (- w) (tape_push t a).
Proof.
  intros m. split.
  - intros ws Hm. exists []. split; [constructor|]. intros v' m' ws'. unfold tape_push. rewrite Hm. intros [= <- <-].
    rewrite lookup_insert. intros [= <-]. rewrite app_length. cbn. lia.
  - intros Hm. split; [exists []; constructor|]. intros v' m' ws'. unfold tape_push. destruct (m !! t) as [[| | |ws|]|] eqn:E; try done.
    by destruct (Hm ws).
Qed.
Lemma wd_free w t a : wpaid w t 0 (free a).
Proof.
  assert (Hf : ∀ m v m' ws, free a m = Ok v m' → m' !! t = Some (Tape ws) → m !! t = Some (Tape ws)).
  { intros m v m' ws. unfold free. case_decide; [by intros [= <- <-]|]. destruct (m !! HCTL) as [[]|] eqn:Eh; try done.
    destruct (hc_live h !! a) as [r|]; [|done]. intros [= <- <-]. destruct (decide (t = HCTL)) as [->|Hne]; [by rewrite lookup_insert|].
    rewrite lookup_insert_ne //. generalize (region_cells a r). intros l. clear. revert m.
    induction l as [|x l IH]; intros m; [done|]. cbn. intros [_ Hl]%lookup_delete_Some. by apply IH. }
  intros m. split.
  - intros ws Hm. exists []. split; [constructor|]. intros v' m' ws' E Hm'. pose proof (Hf _ _ _ _ E Hm'). simplify_eq. cbn. lia.
  - intros Hm. split; [exists []; constructor|]. intros v' m' ws' E Hm'. by eapply Hm, Hf.
Qed.
Lemma wd_foreach_free t fuel : ∀ p, wpaid 3 t 0 (tree_foreach_node fuel p (visit_free t)).
Proof.
  induction fuel as [|fuel IH]; intros p; cbn [tree_foreach_node]; (destruct (decide (p = null)); [apply wd_ret|]); [apply wd_fuel|].
  eapply wd_bind; [apply wd_load|intros ?|]. { eapply wd_bind; [apply IH|intros ?|]. { eapply wd_bind; [apply wd_load|intros ?|].
    { eapply wd_bind; [apply wd_load|intros ?|]. { eapply wd_bind; [|intros ?; apply IH|].
      { unfold visit_free. eapply wd_bind; [apply wd_push|intros ?; apply wd_free|]. reflexivity. } reflexivity. } reflexivity. }
    reflexivity. } reflexivity. } reflexivity.
Qed.
Lemma wpaid_take {A B} w t n (c : M A) (g : A → list Z → B) m v m' :
  0 ≤ w → wpaid w t n c → m !! t = Some (Tape []) → (x ← c; l ← tape_take t; mret (g x l)) m = Ok v m' →
  ∃ log l x, logged (x ← c; l ← tape_take t; mret (g x l)) m log (Ok v m') ∧ v = g x l ∧ Z.of_nat (length log) ≤ n + w * Z.of_nat (length l).
Proof.
  intros Hw Hc Hm. destruct (Hc m) as [Hc1 _]. destruct (Hc1 _ Hm) as (log & H1 & H2). unfold mbind at 1, M_bind.
  destruct (c m) as [x m1| | |] eqn:E; [|done..]. unfold mbind at 1, M_bind. destruct (tape_take t m1) as [ws m3| | |] eqn:Et; [|done..].
  intros [= <- <-]. assert (m1 !! t = Some (Tape ws)) as H3.
  { unfold tape_take in Et. destruct (m1 !! t) as [[| | |ws1|]|]; try done. by simplify_eq. }
  specialize (H2 _ _ _ eq_refl H3). exists (log ++ [] ++ []), ws, x. split; [|split; [done|]].
  - eapply lg_bind; [done|]. eapply lg_bind; [|apply lg_ret]. rewrite -Et. apply lg_take.
  - rewrite !app_nil_r. cbn in H2. lia.
Qed.

(** a paid call whose tape the client then takes *)
Lemma paid_take {A B} w t n (c : M A) (g : A → list Z → B) m v m' :
  0 ≤ w → paid w t n c → m !! t = Some (Tape []) → (x ← c; l ← tape_take t; mret (g x l)) m = Ok v m' →
  ∃ log l x, logged (x ← c; l ← tape_take t; mret (g x l)) m log (Ok v m') ∧ v = g x l ∧ Z.of_nat (length log) ≤ n + w * Z.of_nat (length l).
Proof.
  intros Hw Hc Hm. destruct (Hc m [] Hm) as (log & H1 & H2). unfold mbind at 1, M_bind. destruct (c m) as [x m1| | |] eqn:E; [|done..].
  destruct (H2 _ _ eq_refl) as (ws & H3 & H4). intros Ht. exists (log ++ []), ws, x.
  assert (Hv : v = g x ws ∧ logged (l ← tape_take t; mret (g x l)) m1 [] (Ok v m')).
  { revert Ht. unfold mbind, M_bind. unfold tape_take at 1. rewrite H3. intros [= <- <-]. split; [done|].
    change (@nil access) with (@nil access ++ []). eapply lg_bind; [|apply lg_ret].
    assert (tape_take t m1 = Ok ws (<[t:=Tape []]> m1)) as <- by (unfold tape_take; by rewrite H3). apply lg_take. }
  destruct Hv as [-> Hl]. split; [by eapply lg_bind|]. split; [done|]. rewrite app_nil_r. cbn in H4. lia.
Qed.
Lemma counted_take {A B} n (c : M A) cw t (g : A → list Z → B) m v m' :
  counted n c cw → (x ← c; l ← tape_take t; mret (g x l)) m = Ok v m' →
  ∃ log x, logged (x ← c; l ← tape_take t; mret (g x l)) m log (Ok v m') ∧
    (x0 ← cw; l ← tape_take t; mret (g x0.1 l, x0.2)) m = Ok (v, x) m' ∧ Z.of_nat (length log) ≤ n + 19 * x.
Proof.
  assert (Hb : ∀ C E (d : M C) (k : C → M E) m x m1, d m = Ok x m1 → (d ≫= k) m = k x m1).
  { intros C E d k m0 x m1 Hd. unfold mbind, M_bind. by rewrite Hd. }
  intros Hc. destruct (Hc m) as (log & H1 & H2). unfold mbind at 1, M_bind. destruct (c m) as [y m1| | |] eqn:E; [|done..].
  destruct (H2 _ _ eq_refl) as (x & H3 & H4). rewrite (Hb _ _ cw _ _ _ _ H3). cbn [fst snd]. intros Ht. exists (log ++ []), x. rewrite app_nil_r.
  split; [|split; [|done]].
  - rewrite -(app_nil_r log). eapply lg_bind; [done|]. revert Ht. unfold mbind, M_bind.
    destruct (tape_take t m1) as [l m2| | |] eqn:Et; [|done..]. intros [= <- <-].
    change (@nil access) with (@nil access ++ []). eapply lg_bind; [|apply lg_ret]. rewrite -Et. apply lg_take.
  - revert Ht. unfold mbind, M_bind. destruct (tape_take t m1) as [l m2| | |] eqn:Et; [|done..]. by intros [= <- <-].
Qed.

Lemma log_bound_0 N : log_bound 0 N.
Proof. unfold log_bound. change (59 * (Z.of_nat 0 - 1)) with (-59). change (2 ^ (-59)) with 0. apply Z.pow_nonneg. lia. Qed.

Lemma tree_step_accesses om K D t live m fuel c n cs tr m1 cs' o a m2 :
  tree_start om K t live m → (size om + 4 ≤ fuel)%nat →
  allowed (trpre om K D) trpost (trstate0 om live) c →
  run (trstep fuel t) None (trunc n c) m = Ok (cs, tr) m1 →
  run (trstep fuel t) None (trunc (S n) c) m = Ok (cs', tr ++ [(o, a)]) m2 →
  ∃ log k, logged (trstep fuel t cs o) m1 log (Ok (cs', a) m2) ∧ log_bound k (length (tset tr.*1).2) ∧
    Z.of_nat (length log) ≤ tree_budget (Z.of_nat (length (tset tr.*1).2)) (Z.of_nat k) o.
Proof.
  intros Hs Hf Ha H1 H2. destruct (run_last _ _ _ _ _ _ _ _ _ _ _ _ _ H1 H2) as (H3 & tr' & x & H4 & H5 & H6).
  assert (Hrdy : m1 !! t = Some (Tape []) ∧ ∀ st, cs = Some st → ∃ f, tr_cmp st = tape_cmp t f).
  { pose proof (tree_ready om K D t live m fuel (trunc n c) Hs Hf (trunc_allowed _ _ _ _ _ Ha)) as H. by rewrite H1 in H. }
  destruct Hrdy as [Htape Hcmp].
  assert (Hwork : trwork (length (tset tr.*1).2) o x).
  { pose proof (tree_work_ok om K D t live m fuel (lift_prog (trunc (S n) c)) Hs Hf) as H. rewrite H4 in H. rewrite -H5.
    apply (H (lift_allowed _ _ _ _ (trunc_allowed _ _ _ _ _ Ha)) tr' o a x []). done. }
  assert (Hans : ∃ s1 s2, length (tset tr.*1).2 = length (telems s1) ∧ trpost s1 o a s2).
  { pose proof (tree_history_both om K D t live m fuel (trunc (S n) c) Hs Hf (trunc_allowed _ _ _ _ _ Ha)) as H. rewrite H2 in H.
    destruct H as [(s2 & Hc & _) _]. cbn [snd] in Hc. apply correct_snoc in Hc as (s1 & Hc & [_ Hp]). exists s1, s2. split; [|done].
    apply Permutation_length. by destruct (tgood_ok _ _ _ _ _ _ Hc) as [? _]. }
  destruct Hans as (s1 & s2 & HN & Hpost). set (N := length (tset tr.*1).2) in *. clearbody N. clear H1 H2 H4 H5 Ha Hs tr tr'.
  destruct cs as [st|]; [|destruct o; try done].
  2: { exists [], 0%nat. injection H3 as <- <- <-. split; [apply lg_ret|]. split; [apply log_bound_0|done]. }
  destruct (Hcmp _ eq_refl) as [f Hcmp']. assert (Hcmp0 : ∀ x y, at_most 0 (tr_cmp st x y)).
  { intros y z. rewrite Hcmp'. apply am_tape_cmp. }
  assert (Hfew : ∀ d xs calls, few_calls d xs calls → ∃ k, log_bound k (length xs) ∧ Z.of_nat (length calls) = 2 * Z.of_nat k).
  { intros d xs calls (ys & -> & _ & Hb). exists (length ys). split; [done|]. clear. induction ys as [|y ys IH]; [done|].
    rewrite bind_cons app_length. cbn [length]. lia. }
  destruct o; try done; cbn [trstep trstep_w tree_budget trwork] in *.
  - exists [], 0%nat. injection H3 as <- <- <-. split; [apply lg_ret|]. split; [apply log_bound_0|done].
  - destruct (counted_take _ _ _ t (λ r l, (Some r.2, TrFound r.1 l)) m1 _ _ (ct_insert fuel st p d Hcmp0) H3) as (log & y & L1 & L2 & L3).
    assert (y = x) as ->. { revert H6 L2. unfold mbind, M_bind. destruct (tree_insert_w fuel st p d m1) as [[[? ?] ?] ?| | |]; [|done..].
      cbn [fst snd]. destruct (tape_take t _) as [? ?| | |]; [|done..]. intros E1 E2. rewrite E1 in E2. by simplify_eq. }
    destruct Hwork as (k & Hk & Hx). exists log, k. split; [exact L1|]. split; [done|lia].
  - destruct (counted_take _ _ _ t (λ r l, (Some r.2, TrFound r.1 l)) m1 _ _ (ct_remove fuel st d Hcmp0) H3) as (log & y & L1 & L2 & L3).
    assert (y = x) as ->. { revert H6 L2. unfold mbind, M_bind. destruct (tree_remove_w fuel st d m1) as [[[? ?] ?] ?| | |]; [|done..].
      cbn [fst snd]. destruct (tape_take t _) as [? ?| | |]; [|done..]. intros E1 E2. rewrite E1 in E2. by simplify_eq. }
    destruct Hwork as (k & Hk & Hx). exists log, k. split; [exact L1|]. split; [done|lia].
  - destruct (counted_take _ _ _ t (λ r l, (Some r.2, TrFound r.1 l)) m1 _ _ (ct_remove_existing fuel st p Hcmp0) H3) as (log & y & L1 & L2 & L3).
    assert (y = x) as ->. { revert H6 L2. unfold mbind, M_bind. destruct (tree_remove_existing_w fuel st p m1) as [[[? ?] ?] ?| | |]; [|done..].
      cbn [fst snd]. destruct (tape_take t _) as [? ?| | |]; [|done..]. intros E1 E2. rewrite E1 in E2. by simplify_eq. }
    destruct Hwork as (k & Hk & Hx). exists log, k. split; [exact L1|]. split; [done|lia].
  - destruct Hpost as (c0 & xs & z & calls & E1 & -> & Hc & _). rewrite /telems E1 in HN. destruct (Hfew _ _ _ Hc) as (j & Hk & Hl).
    assert (Hp : paid 1 t 1 (tree_search fuel st d)).
    { unfold tree_search. rewrite Hcmp'. eapply pd_le; [eapply pd_bind; [apply pd_search_node|intros ?; repeat pd1]|lia]. }
    destruct (paid_take 1 t 1 _ (λ r l, (Some st, TrFound r l)) m1 _ _ ltac:(lia) Hp Htape H3) as (log & l & y & L1 & L2 & L3).
    simplify_eq. exists log, j. split; [exact L1|]. split; [done|lia].
  - destruct Hpost as (c0 & xs & z & calls & E1 & -> & Hc & _). rewrite /telems E1 in HN. destruct (Hfew _ _ _ Hc) as (j & Hk & Hl).
    assert (Hp : paid 1 t 1 (tree_search_compare fuel st (tape_cmp t (λ _, f0)) k)).
    { unfold tree_search_compare. eapply pd_le; [eapply pd_bind; [apply pd_search_node|intros ?; repeat pd1]|lia]. }
    destruct (paid_take 1 t 1 _ (λ r l, (Some st, TrFound r l)) m1 _ _ ltac:(lia) Hp Htape H3) as (log & l & y & L1 & L2 & L3).
    simplify_eq. exists log, j. split; [exact L1|]. split; [done|lia].
  - exists [], 0%nat. injection H3 as <- <- <-. split; [apply lg_ret|]. split; [apply log_bound_0|done].
  - exists [], 0%nat. injection H3 as <- <- <-. split; [apply lg_ret|]. split; [apply log_bound_0|done].
  - destruct Hpost as (c0 & xs & E1 & -> & _). rewrite /telems E1 in HN.
    destruct (paid_take 3 t 0 _ (λ _ l, (Some st, TrData l)) m1 _ _ ltac:(lia) (pd_tree_foreach 3 t fuel ltac:(lia) (tr_root st)) Htape H3)
      as (log & l & y & L1 & L2 & L3).
    injection L2 as _ <-. exists log, 0%nat. split; [exact L1|]. split; [apply log_bound_0|]. rewrite fmap_length in L3. lia.
  - destruct Hpost as (c0 & xs & E1 & -> & _). rewrite /telems E1 in HN.
    destruct (paid_take 2 t 0 _ (λ _ l, (Some st, TrData l)) m1 _ _ ltac:(lia) (pd_foreach_arg t arg fuel (tr_root st)) Htape H3)
      as (log & l & y & L1 & L2 & L3).
    injection L2 as _ <-. exists log, 0%nat. split; [exact L1|]. split; [apply log_bound_0|].
    assert (Hlen : length (pd ← xs; [arg; pd.2]) = (2 * length xs)%nat).
    { clear. induction xs as [|x xs IH]; [done|]. rewrite bind_cons app_length IH. cbn [length]. lia. }
    rewrite Hlen in L3. lia.
  - destruct Hpost as (c0 & xs & E1 & -> & _). rewrite /telems E1 in HN.
    destruct (wpaid_take 3 t 0 _ (λ _ l, (None, TrData l)) m1 _ _ ltac:(lia) (wd_foreach_free t fuel (tr_root st)) Htape H3)
      as (log & l & y & L1 & L2 & L3).
    injection L2 as _ <-. exists log, 0%nat. split; [exact L1|]. split; [apply log_bound_0|]. rewrite fmap_length in L3. lia.
Qed.
