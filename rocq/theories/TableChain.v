(** * Each bucket holds exactly the elements whose hashes select it. *)
From Verif Require Export TableProps HashTblProof HashDynProof HashLinProof.
Global Open Scope Z_scope.

(** A comparison that only looks: it terminates, and writes nothing. *)
Definition looks (cmp : Z → Z → M Z) : Prop := ∀ a b m,
  match cmp a b m with Ok _ m1 => m1 = m | Fuel => False | _ => True end.

(** The number of elements of each of the [n] buckets. *)
Definition chain_lengths (slot : Z → Z) (n : nat) (es : list ent) : list nat :=
  (λ j, length (filter (λ e, slot (en_h e) = Z.of_nat j) es)) <$> seq 0 n.

(** If following the links from [i] meets the nodes [xs], a search from [i]
    makes at most [length xs] steps. *)
Lemma search_steps cmp arg h m : looks cmp → ∀ xs i fuel,
  list_walk fuel i m = Ok xs m → bucket_search (length xs) cmp arg h i m ≠ Fuel.
Proof.
  intros Hcmp xs. induction xs as [|x xs IH]; intros i fuel Hw.
  - destruct fuel; simpl in *; case_decide; try done.
    exfalso. revert Hw. rewrite /mbind /M_bind /load. destruct (m !! f_data i) as [[d| | | |]|]; try done.
    destruct (m !! f_next i) as [[nx| | | |]|]; try done. destruct (list_walk fuel nx m); done.
  - destruct fuel as [|fuel]; simpl in Hw; case_decide as Hi; try done.
    cbn [length bucket_search]. rewrite decide_False //.
    revert Hw. rewrite /mbind /M_bind /load. destruct (m !! f_data i) as [[d| | | |]|] eqn:Ed; try done.
    destruct (m !! f_next i) as [[nx| | | |]|] eqn:En; try done.
    destruct (list_walk fuel nx m) as [l m1| | |] eqn:El; try done. intros [= <- <- ->].
    destruct (m !! f_index i) as [[ix| | | |]|]; try done.
    assert (Hgo : bucket_search (length l) cmp arg h nx m ≠ Fuel) by (by eapply IH).
    destruct (decide (ix = h)); simpl.
    + rewrite Ed. pose proof (Hcmp arg d m) as Hc. destruct (cmp arg d m) as [r m2| | |]; try done. subst m2. simpl.
      destruct (decide (bool_decide (r = 0) = true)); rewrite /mret /M_ret /=.
      * case_decide; [by rewrite Ed|done].
      * case_decide; [done|]. by rewrite En.
    + by rewrite En.
Qed.

Lemma sum_chains slot es n : (∀ e, e ∈ es → 0 <= slot (en_h e) < Z.of_nat n) →
  sum_list (chain_lengths slot n es) = length es.
Proof.
  rewrite /chain_lengths. induction es as [|e es IH]; intros Hr.
  - clear Hr. simpl. assert (H0 : ∀ s, sum_list ((λ _ : nat, 0%nat) <$> seq s n) = 0%nat); [|apply H0].
    induction n as [|n IHn]; intros s; [done|]. apply IHn.
  - pose proof (Hr e ltac:(left)) as He. cbn [length].
    rewrite -IH; [clear IH|by intros x Hx; apply Hr, elem_of_list_further].
    set (c := Z.to_nat (slot (en_h e))).
    assert (Hsum : ∀ k s, sum_list ((λ j, length (filter (λ e, slot (en_h e) = Z.of_nat j) (e :: es))) <$> seq s k) =
      ((if decide (s ≤ c < s + k)%nat then 1 else 0) +
       sum_list ((λ j, length (filter (λ e, slot (en_h e) = Z.of_nat j) es)) <$> seq s k))%nat).
    { induction k as [|k IHk]; intros s; [simpl; rewrite decide_False; lia|].
      cbn [seq fmap list_fmap sum_list]. rewrite IHk filter_cons.
      destruct (decide (slot (en_h e) = Z.of_nat s)) as [Hs|Hs]; cbn [length]; unfold id.
      - rewrite decide_False; [|lia]. rewrite decide_True; [|lia]. lia.
      - destruct (decide (S s ≤ c < S s + k)%nat); [rewrite decide_True; lia|rewrite decide_False; lia]. }
    rewrite Hsum decide_True; [done|lia].
Qed.

Section chain.
  Variables (T : table) (inv : tb_st T → nat → Prop) (buckets : tb_st T → Z).
  Hypothesis hist : ∀ om K t live m fuel c,
    table_start om K t live m → (size om ≤ fuel)%nat → allowed (tpre om K) tpost (tstate0 om live) c →
    safe (run (tstep T fuel t) None c m) (λ r m',
      table_end T inv om live r.1 r.2 m' ∧ unchanged_outside (HCTL :: t :: objs_cells om) m m').
  Hypothesis search_eq : ∀ fuel st cmp arg h,
    tb_search T fuel st cmp arg h = (i ← tb_bucket T st h; bucket_search fuel cmp arg h i).
  Hypothesis slot_range : ∀ st n h, inv st n → 0 <= tb_slot T st h < buckets st.

  Lemma table_chains : after_any_history T (λ om live cs tr m', ∃ s, correct tpost (tstate0 om live) tr s ∧
    ∀ es, ts_tab s = TabEs es → ∃ st, cs = Some st ∧
      sum_list (chain_lengths (tb_slot T st) (Z.to_nat (buckets st)) es) = length es ∧
      ∀ h, word h → 0 <= tb_slot T st h < buckets st ∧ ∃ i xs, tb_bucket T st h m' = Ok i m' ∧
        Permutation xs (filter (λ e, tb_slot T st (en_h e) = tb_slot T st h) es) ∧
        filter (λ e, en_h e = h) xs = filter (λ e, en_h e = h) es ∧
        (∀ fuel, (length xs ≤ fuel)%nat → list_walk fuel i m' = Ok ((λ e, (en_p e, en_d e)) <$> xs) m') ∧
        ∀ cmp arg, looks cmp → tb_search T (length xs) st cmp arg h m' ≠ Fuel).
  Proof.
    apply (hist_any T inv hist). intros om live cs tr m' (s & int & Hc & Hl & Hd & He). exists s. split; [done|].
    intros es Ht. rewrite Ht in He. destruct He as (st & -> & Hinv & _ & _ & Hch). exists st. split; [done|]. split.
    - apply sum_chains. intros e _. pose proof (slot_range st _ (en_h e) Hinv). lia.
    - intros h Hh. split; [by eapply slot_range|]. destruct (Hch h Hh) as (i & xs & Hb & Hp & Hf & Hw). exists i, xs.
      do 4 (split; [done|]). intros cmp arg Hcmp. rewrite search_eq /mbind /M_bind Hb.
      pose proof (search_steps cmp arg h m' Hcmp _ _ _ (Hw _ (Nat.le_refl _))) as Hs. by rewrite fmap_length in Hs.
  Qed.
End chain.

Lemma hashtable_slot_range st n h : hashtable_inv st n → 0 <= tb_slot hashtable_table st h < ht_bucket_max st.
Proof.
  intros [(k & Hk & Hm) _]. simpl. apply Z.mod_pos_bound. rewrite Hm. apply Z.pow_pos_nonneg; lia.
Qed.
Lemma hashdyn_slot_range st n h : hashdyn_inv st n → 0 <= tb_slot hashdyn_table st h < hd_bucket_max st.
Proof. intros (_ & _ & H16 & _). simpl. apply Z.mod_pos_bound. lia. Qed.
Lemma hashlin_slot_range st n h : hashlin_inv st n → 0 <= tb_slot hashlin_table st h < hl_low_max st + hl_split st.
Proof.
  intros (_ & _ & _ & Hlow & Hcase).
  change (tb_slot hashlin_table st h) with (hslot (hl_low_max st) (hl_bucket_max st) (hl_split st) h).
  destruct Hcase as [(_ & -> & _ & _)|[(_ & Hs & -> & _)|(_ & Hs & -> & _)]].
  - rewrite hslot_0; [|lia]. pose proof (Z.mod_pos_bound h (hl_low_max st)). lia.
  - apply hslot_range; lia.
  - apply hslot_range; lia.
Qed.
