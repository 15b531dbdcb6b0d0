(** * The growth of the linear hashtable once more, counting the elements that it
    links again.

    The functions [.._w] are those of HashLin.v with one more result: the number
    of nodes appended to a bucket by the loop of tommyhashlin.c:154-162. *)
From Verif Require Export HashLinProof.
Global Open Scope Z_scope.
Local Typeclasses Transparent nodeP freenode freenode_i lst.

(** tommyhashlin.c:154-162 the while loop that flushes a bucket, counting *)
Fixpoint hashlin_flush_w (fuel : nat) (split0 split1 mask j : Z) : M (unit * Z) :=
  if decide (j = null) then mret (tt, 0) else
  match fuel with
  | O => fuel_out
  | S fuel =>
      j_next ← load (f_next j);
      index ← load (f_index j);
      let split := if decide (Z.land index mask ≠ 0) then split1 else split0 in
      head ← load split;
      (if decide (head ≠ null)
       then list_insert_tail_not_empty head j
       else list_insert_first split j);;
      r ← hashlin_flush_w fuel split0 split1 mask j_next;
      mret (r.1, 1 + r.2)
  end.

(** tommyhashlin.c:132-172 the while loop of growing, counting *)
Fixpoint hashlin_grow_loop_w (fuel lfuel : nat) (t : hashlin) (split_target : Z) : M (hashlin * Z) :=
  if decide (wrap (hl_split t + hl_low_max t) < split_target) then
    match lfuel with
    | O => fuel_out
    | S lfuel =>
        split0 ← hashlin_pos t (hl_split t);
        split1 ← hashlin_pos t (wrap (hl_split t + hl_low_max t));
        j ← load split0;
        store split0 null;;
        store split1 null;;
        let mask := hl_low_max t in
        u ← hashlin_flush_w fuel split0 split1 mask j;
        let t := hl_set_split t (wrap (hl_split t + 1)) in
        if decide (hl_split t = hl_low_max t)
        then mret (hashlin_stable t, u.2)
        else r ← hashlin_grow_loop_w fuel lfuel t split_target; mret (r.1, u.2 + r.2)
    end
  else mret (t, 0).

(** tommyhashlin.c:89-175 hashlin_grow_step, counting *)
Definition hashlin_grow_step_w (fuel : nat) (t : hashlin) : M (hashlin * Z) :=
  t ← (if decide (hl_state t ≠ STATE_GROW ∧ hl_bucket_max t / 2 < hl_count t) then
         t ← (if decide (hl_state t = STATE_STABLE) then
                let t := hl_set_low t (hl_bucket_max t) (hl_bucket_mask t) in
                segment ← malloc (wrap (hl_low_max t * 8));
                t ← hl_set t (hl_bucket_bit t) (seg_ref segment (- hl_low_max t));
                t ← hl_set_bit t (hl_bucket_bit t + 1);
                mret (hl_set_split t 0)
              else mret t);
         mret (hl_set_state t STATE_GROW)
       else mret t);
  if decide (hl_state t = STATE_GROW) then
    hashlin_grow_loop_w fuel (Z.to_nat (hl_low_max t)) t (wrap (2 * hl_count t))
  else mret (t, 0).

(** tommyhashlin.c:247-256 tommy_hashlin_insert, counting *)
Definition hashlin_insert_w (fuel : nat) (t : hashlin) (node data hash : Z) : M (hashlin * Z) :=
  b ← hashlin_bucket_ref t hash;
  list_insert_tail b node data;;
  store (f_index node) hash;;
  hashlin_grow_step_w fuel (hl_set_count t (wrap (hl_count t + 1))).

Lemma filter_all {A} (P : A → Prop) `{!∀ x, Decision (P x)} (l : list A) : Forall P l → filter P l = l.
Proof. induction 1 as [|x l Hx Hl IH]; [done|]. by rewrite filter_cons decide_True // IH. Qed.
Lemma filter_submseteq {A} (P : A → Prop) `{!∀ x, Decision (P x)} (l k : list A) : l ⊆+ k → filter P l ⊆+ filter P k.
Proof.
  intros (j & ->)%submseteq_Permutation. rewrite filter_app. apply submseteq_inserts_r. done.
Qed.
Lemma filter_next (low split : Z) (es : list elem) :
  Z.of_nat (length (filter (λ e, e_h e mod low = split) es)) + Z.of_nat (length (filter (λ e, split + 1 ≤ e_h e mod low) es)) =
  Z.of_nat (length (filter (λ e, split ≤ e_h e mod low) es)).
Proof.
  induction es as [|e es IH]; [done|]. rewrite !filter_cons.
  repeat case_decide; cbn [length]; lia.
Qed.

(** The elements in the buckets still to be split. *)
Definition hl_tosplit (low split : Z) (es : list elem) : Z :=
  Z.of_nat (length (filter (λ e, split ≤ e_h e mod low) es)).
(** What the past operations must have paid in advance for linking the elements
    again: once for those still to be split in this growth, and the rest for the
    growths to come. *)
Definition hl_slack (st : hashlin) (n : Z) : Z :=
  if decide (hl_state st = STATE_SHRINK) then 0 `max` (4 * n - hl_low_max st) else 0 `max` (2 * n - hl_bucket_max st / 2).
Definition hl_growing (st : hashlin) (es : list elem) : Z :=
  if decide (hl_state st = STATE_GROW) then hl_tosplit (hl_low_max st) (hl_split st) es else 0.
Definition hl_pot (st : hashlin) (es : list elem) : Z := hl_growing st es + hl_slack st (Z.of_nat (length es)).

Lemma hl_pot_stable st es : hl_state st = STATE_STABLE → hl_pot st es = 0 `max` (2 * Z.of_nat (length es) - hl_bucket_max st / 2).
Proof. intros H. unfold hl_pot, hl_slack, hl_growing. rewrite H. reflexivity. Qed.
Lemma hl_pot_grow st es : hl_state st = STATE_GROW →
  hl_pot st es = hl_tosplit (hl_low_max st) (hl_split st) es + 0 `max` (2 * Z.of_nat (length es) - hl_bucket_max st / 2).
Proof. intros H. unfold hl_pot, hl_slack, hl_growing. rewrite H. reflexivity. Qed.
Lemma hl_pot_shrink st es : hl_state st = STATE_SHRINK → hl_pot st es = 0 `max` (4 * Z.of_nat (length es) - hl_low_max st).
Proof. intros H. unfold hl_pot, hl_slack, hl_growing. rewrite H. reflexivity. Qed.
Lemma hl_tosplit_le low split es : 0 ≤ hl_tosplit low split es ≤ Z.of_nat (length es).
Proof. unfold hl_tosplit. pose proof (filter_length (λ e, split ≤ e_h e mod low) es). lia. Qed.
Lemma hl_tosplit_snoc low split es e : hl_tosplit low split (es ++ [e]) ≤ hl_tosplit low split es + 1.
Proof.
  unfold hl_tosplit. rewrite filter_app app_length filter_cons filter_nil. case_decide; cbn [length]; lia.
Qed.

Section relink.
  Context `{!memG}.
  Variable t : Z.

  Lemma wp_hashlin_flush_w xs fuel a0 a1 low L0 L1 pv Φ :
    (length xs ≤ fuel)%nat → (∃ l, 0 ≤ l ∧ low = 2 ^ l) → Forall hashed xs →
    ∀ s, 0 ≤ s < low → Forall (λ x, e_h x mod low = s) xs →
    dseg xs pv 0 -∗ lst a0 L0 -∗ lst a1 L1 -∗
    (lst a0 (L0 ++ part (λ h, h mod (2 * low)) s xs) -∗
     lst a1 (L1 ++ part (λ h, h mod (2 * low)) (low + s) xs) -∗ Φ (tt, Z.of_nat (length xs))) -∗
    wp (hashlin_flush_w fuel a0 a1 low (hd_p xs 0)) Φ.
  Proof.
    intros Hf (l & Hl & ->) HF s Hs. revert fuel L0 L1 pv Φ Hf HF.
    induction xs as [|x xs IH]; intros fuel L0 L1 pv Φ Hf HF Hin; iIntros "Hd H0 H1 HΦ".
    { destruct fuel; cbn [hd_p hashlin_flush_w]; (iApply wp_if_true; [done|]); wp_ret; rewrite !app_nil_r; by iApply ("HΦ" with "H0 H1"). }
    destruct fuel as [|fuel]; simpl in Hf; [lia|]. apply Forall_cons in HF as [Hh HF].
    apply Forall_cons in Hin as [Hx Hin].
    cbn [hd_p hashlin_flush_w]. rewrite dseg_cons. iDestruct "Hd" as "[(%Hp&Hn&Hv&Hda&Hi) Hd]".
    iApply wp_if_false; [rewrite /null; lia|].
    destruct (hashed_e _ Hh) as [He Hw]. rewrite He. wp_load. wp_load.
    iAssert (nodeP x (hd_p xs 0) pv) with "[Hn Hv Hda Hi]" as "Hn".
    { rewrite /nodeP He. by iFrame. }
    assert (Hbit : (Z.land (e_h x) (2 ^ l) ≠ 0 → e_h x mod (2 * 2 ^ l) = 2 ^ l + s) ∧
                   (Z.land (e_h x) (2 ^ l) = 0 → e_h x mod (2 * 2 ^ l) = s)).
    { replace (2 * 2 ^ l) with (2 ^ (l + 1)) by (rewrite Z.pow_add_r; lia).
      assert (Hd : e_h x mod 2 ^ (l + 1) = s + 2 ^ l * Z.b2z (Z.testbit (e_h x) l)).
      { rewrite Z.pow_add_r; [|lia..]. rewrite Z.rem_mul_r; [|lia..]. rewrite Hx. do 2 f_equal.
        rewrite Z.testbit_spec' //. }
      assert (Hland : Z.land (e_h x) (2 ^ l) = 2 ^ l * Z.b2z (Z.testbit (e_h x) l)).
      { apply Z.bits_inj'. intros i Hi. rewrite Z.land_spec Z.pow2_bits_eqb //.
        rewrite Z.mul_comm -Z.shiftl_mul_pow2 // Z.shiftl_spec //.
        destruct (Z.eqb_spec l i) as [->|Hne].
        - rewrite Z.sub_diag andb_true_r. by destruct (Z.testbit (e_h x) i).
        - rewrite andb_false_r. destruct (Z.testbit (e_h x) l); cbn [Z.b2z].
          + destruct (decide (i < l)); [by rewrite Z.testbit_neg_r; [|lia]|].
            rewrite Z.bits_above_log2 //; simpl; lia.
          + by rewrite Z.bits_0. }
      rewrite Hd Hland. pose proof (Z.pow_pos_nonneg 2 l). destruct (Z.testbit (e_h x) l); cbn [Z.b2z]; lia. }
    destruct Hbit as [Hb1 Hb0].
    assert (Hlen : 1 + Z.of_nat (length xs) = Z.of_nat (length (x :: xs))) by (cbn; lia).
    destruct (decide (Z.land (e_h x) (2 ^ l) ≠ 0)) as [Hb|Hb].
    - specialize (Hb1 Hb). iApply (wp_append with "Hn H1"). iIntros "H1". wp_bind. iApply (IH with "Hd H0 H1"); [lia|done|done|]. iIntros "H0 H1". wp_ret. cbn [fst snd]. rewrite Hlen. iApply ("HΦ" with "[H0] [H1]").
      + rewrite /part filter_cons Hb1. rewrite decide_False; [done|lia].
      + by rewrite /part filter_cons Hb1 decide_True // -app_assoc.
    - specialize (Hb0 ltac:(by destruct (decide (Z.land (e_h x) (2 ^ l) = 0)))). iApply (wp_append with "Hn H0"). iIntros "H0". wp_bind. iApply (IH with "Hd H0 H1"); [lia|done|done|]. iIntros "H0 H1". wp_ret. cbn [fst snd]. rewrite Hlen. iApply ("HΦ" with "[H0] [H1]").
      + by rewrite /part filter_cons Hb0 decide_True // -app_assoc.
      + rewrite /part filter_cons Hb0. rewrite decide_False; [done|lia].
  Qed.

  Lemma wp_hl_divide_w fuel st i sg split es {R} (k : unit * Z → M R) Φ :
    hl_phys st (S i) sg → hl_fields st (S i) (pw i) split → 0 ≤ split < pw i → (length es ≤ fuel)%nat →
    hl_cells sg (S i) (pw i) split es -∗
    (∀ x, ⌜0 ≤ x ≤ Z.of_nat (length (filter (λ e, e_h e mod pw i = split) es))⌝ -∗ hl_cells sg (S i) (pw i) (split + 1) es -∗ wp (k (tt, x)) Φ) -∗
    wp (split0 ← hashlin_pos st split;
        split1 ← hashlin_pos st (pw i + split);
        j ← load split0;
        store split0 null;;
        store split1 null;;
        u ← hashlin_flush_w fuel split0 split1 (pw i) j; k u) Φ.
  Proof.
    iIntros (Hph Hf Hs Hfuel) "(%B & %Hg & HB & Hraw) HΦ". pose proof (pw_ge i).
    assert (Hdbl : pw (S i) = 2 * pw i) by apply pw_S. rewrite Hdbl in Hg |- *.
    wp_bind. iApply (wp_hashlin_pos st (S i) sg (Z.to_nat split)); [done|lia|lia|].
    wp_bind. iApply (wp_hashlin_pos st (S i) sg (Z.to_nat (pw i + split))); [done|lia|lia|].
    iDestruct (bks_acc _ _ _ (Z.to_nat split) with "HB") as "[[Hl Hd] HB]"; [lia|].
    assert (Hgf : (length (B (Z.to_nat split)) ≤ fuel)%nat).
    { etrans; [eapply (good_length _ _ _ _ _ Hg); lia|done]. }
    replace (Z.to_nat (2 * pw i - (pw i + split))) with (S (Z.to_nat (2 * pw i - (pw i + (split + 1))))) by lia.
    cbn [seq]. rewrite big_sepL_cons. iDestruct "Hraw" as "[(%c & %Hc & H1) Hraw]".
    assert (Hpl : ∃ l, 0 ≤ l ∧ pw i = 2 ^ l) by (exists (6 + Z.of_nat i); split; [lia|done]).
    assert (HhB : Forall hashed (B (Z.to_nat split))) by (apply (good_hashed_B _ _ _ _ Hg); lia).
    assert (HinB : Forall (λ x, e_h x mod pw i = split) (B (Z.to_nat split))).
    { pose proof (good_in _ _ _ _ Hg (Z.to_nat split) ltac:(lia)) as HF. eapply Forall_impl; [exact HF|].
      intros e He. simpl in He. rewrite /hslot in He. pose proof (Z.mod_pos_bound (e_h e) (pw i)).
      case_decide; [|lia]. destruct (mod_double (pw i) (e_h e)); lia. }
    wp_load. wp_store. wp_store. wp_bind.
    iApply (wp_hashlin_flush_w _ _ _ _ _ [] [] _ _ Hgf Hpl HhB split Hs HinB with "Hd [Hl] [H1]").
    - rewrite /lst /=. by iFrame.
    - rewrite /lst /=. by iFrame.
    - iIntros "H0 H1". iApply "HΦ".
      { iPureIntro. split; [lia|]. apply inj_le. apply submseteq_length. rewrite -(filter_all (λ e, e_h e mod pw i = split) (B (Z.to_nat split))) //.
        apply filter_submseteq. eapply good_submseteq; [exact Hg|lia]. }
      pose proof (good_divide (pw i) split es B ltac:(lia) Hs Hg) as Hg'.
      iExists _. rewrite Hdbl. rewrite Z.add_assoc.
      replace (Z.to_nat (pw i + split + 1)) with (S (Z.to_nat (pw i + split))) by lia.
      iSplit; [iPureIntro; exact Hg'|]. rewrite -Z.add_assoc. iFrame "Hraw".
      rewrite /bks seq_S big_sepL_app big_sepL_singleton /=. rewrite upd_eq. iFrame "H1".
      iDestruct ("HB" with "H0") as "HB". iApply (big_sepL_impl with "HB"). iIntros "!>" (a b [-> Hb]%lookup_seq) "H".
      rewrite (upd_ne _ (Z.to_nat (pw i + split))) //. lia.
  Qed.

  Lemma wp_hl_grow_loop_w fuel lfuel st i sg split es tgt int cl Φ :
    hl_phys st (S i) sg → hl_fields st (S i) (pw i) split → hl_state st = STATE_GROW →
    0 ≤ split < pw i → (Z.to_nat (pw i - split) ≤ lfuel)%nat → (length es ≤ fuel)%nat →
    int = segmap sg 0 (S (S i)) → int ##ₘ cl →
    hl_cells sg (S i) (pw i) split es -∗ hctl (int ∪ cl) -∗
    (∀ st' x, ⌜0 ≤ x ∧ x + hl_growing st' es ≤ hl_tosplit (pw i) split es⌝ -∗ ⌜hl_count st' = hl_count st⌝ -∗
       ⌜(hl_state st' = STATE_GROW ∧ ∃ split', split ≤ split' < pw i ∧ tgt ≤ pw i + split' ∧ hl_fields st' (S i) (pw i) split') ∨
        (hl_state st' = STATE_STABLE ∧ hl_fields st' (S i) (pw (S i)) 0)⌝ -∗
       hl_tab st' (S i) (hl_low_max st') (hl_split st') es int -∗ hctl (int ∪ cl) -∗ Φ (st', x)) -∗
    wp (hashlin_grow_loop_w fuel lfuel st tgt) Φ.
  Proof.
    iIntros (Hph Hf Hst Hs Hlf Hfuel Hint Hdis) "HC Hc HΦ".
    pose proof (hp_j _ _ _ Hph) as Hj. pose proof (pw_ge i) as Hp64. pose proof (pw_le (S i) Hj) as Hple.
    assert (Hdbl : pw (S i) = 2 * pw i) by apply pw_S.
    iInduction lfuel as [|lfuel] "IH" forall (st split Φ Hph Hf Hst Hs Hlf).
    { lia. }
    pose proof Hf as (Hb & Hm & Hmask & Hlm & Hlmask & Hsp).
    cbn [hashlin_grow_loop_w]. rewrite Hlm Hsp hl_pos_wrap; [|lia|lia].
    destruct (decide (pw i + split < tgt)) as [Hlt|Hge]; last first.
    { wp_ret. iApply ("HΦ" with "[] [//] [] [HC] Hc").
      - iPureIntro. rewrite /hl_growing decide_True // Hlm Hsp. lia.
      - iPureIntro. left. split; [done|]. exists split. split; [lia|]. split; [lia|done].
      - rewrite Hlm Hsp. iExists sg. by iFrame. }
    iApply (wp_hl_divide_w with "HC"); [done|done|done|done|]. iIntros (y Hy) "HC".
    pose proof (filter_next (pw i) split es) as Hnext.
    assert (Hw1 : wrap (split + 1) = split + 1) by (rewrite /wrap Z.mod_small; lia). rewrite Hw1.
    destruct (decide (split + 1 = pw i)) as [Hend|Hne].
    - iApply wp_if_true; [by rewrite /= Hlm|]. wp_ret.
      iApply ("HΦ" with "[] [] [] [HC] Hc").
      + iPureIntro. cbn [snd]. change (hl_growing _ es) with 0. rewrite /hl_tosplit. lia.
      + done.
      + iPureIntro. right. split; [done|]. rewrite /hl_fields /= Hm Hmask Hb. done.
      + cbn [hashlin_stable hl_set_split hl_set_low hl_set_state hl_low_max hl_split]. rewrite Hm.
        iExists sg. iSplit; [iPureIntro; eapply hl_phys_fields; [|exact Hph]; done|]. iSplit; [done|].
        iApply (hl_cells_slot with "HC"); [lia|]. intros h. rewrite Hend hslot_full; [|lia]. rewrite hslot_0; [done|lia].
    - iApply wp_if_false; [by rewrite /= Hlm|]. wp_bind.
      iApply ("IH" $! (hl_set_split st (split + 1)) (split + 1) with "[] [] [] [] [] HC Hc [HΦ]").
      + iPureIntro. eapply hl_phys_fields; [|exact Hph]; done.
      + iPureIntro. by eapply hl_set_split_fields.
      + done.
      + iPureIntro. lia.
      + iPureIntro. lia.
      + iIntros (st' x Hx Hc' Hcase) "HT Hc". wp_ret. cbn [fst snd]. iApply ("HΦ" with "[] [//] [] HT Hc"); iPureIntro; [rewrite /hl_tosplit in Hx |- *; lia|].
        destruct Hcase as [(?&s'&?&?&?)|?]; [left|by right]. split; [done|]. exists s'. split; [lia|done].
  Qed.

  Lemma wp_hl_grow_run_w fuel st i sg split es int cl c Φ :
    hl_phys st (S i) sg → hl_fields st (S i) (pw i) split → hl_state st = STATE_GROW →
    0 ≤ split < pw i → (length es ≤ fuel)%nat → int = segmap sg 0 (S (S i)) → int ##ₘ cl →
    hl_count st = c → c = Z.of_nat (length es) → c < 2 ^ 59 →
    (split = 0 → pw i < 2 * c) → 2 * c ≤ pw (S i) + 2 → pw (S i) ≤ 8 * c →
    hl_cells sg (S i) (pw i) split es -∗ hctl (int ∪ cl) -∗
    (∀ st' x, ⌜0 ≤ x ≤ Z.of_nat (length es) ∧ x + hl_pot st' es ≤ hl_tosplit (pw i) split es + 0 `max` (2 * c - pw i)⌝ -∗ tabR hashlin_table hl_rep st' es cl -∗ Φ (st', x)) -∗
    wp (hashlin_grow_loop_w fuel (Z.to_nat (hl_low_max st)) st (wrap (2 * hl_count st))) Φ.
  Proof.
    iIntros (Hph Hf Hst Hs Hfuel Hint Hdis Hc Hlen Hsz H0 H1 H8) "HC Hc HΦ".
    pose proof Hf as (Hb & Hm & Hmask & Hlm & Hlmask & Hsp). pose proof (pw_ge i). pose proof (pw_S i) as Hdbl.
    rewrite Hlm Hc. replace (wrap (2 * c)) with (2 * c) by (rewrite /wrap Z.mod_small; lia).
    iApply (wp_hl_grow_loop_w with "HC Hc"); [done|done|done|done|lia|done|done|done|].
    iIntros (st' x Hx Hc' Hcase) "HT Hc". iApply "HΦ".
    { iPureIntro. pose proof (hl_tosplit_le (pw i) split es) as Hts.
      assert (Hg0 : 0 ≤ hl_growing st' es) by (unfold hl_growing; case_decide; [apply hl_tosplit_le|done]).
      split; [lia|]. rewrite /hl_pot /hl_slack.
      destruct Hcase as [(Hst' & s' & _ & _ & (_ & Hm' & _))|(Hst' & (_ & Hm' & _))];
        (rewrite decide_False; [|by rewrite Hst']); rewrite Hm' Hdbl -Hlen; replace (2 * pw i / 2) with (pw i) by (rewrite Z.mul_comm Z.div_mul //); lia. } iApply (tabR_intro with "[HT] Hc"); [done|].
    destruct Hcase as [(Hst' & split' & Hs' & Htgt & Hf')|(Hst' & Hf')].
    - pose proof Hf' as (_ & _ & _ & Hlm' & _ & Hsp'). rewrite Hlm' Hsp'.
      iExists (S i), (pw i), split'. iFrame "HT". iPureIntro. split; [right; exists i; split; [done|]; split; [done|lia]|].
      split; [done|]. split; [congruence|]. right; left. rewrite -Hlen. split_and!; try done; lia.
    - pose proof Hf' as (_ & _ & _ & Hlm' & _ & Hsp'). rewrite Hlm' Hsp'.
      iExists (S i), (pw (S i)), 0. iFrame "HT". iPureIntro. split; [by left|]. split; [done|].
      split; [congruence|]. left. rewrite -Hlen. split_and!; try done. by right.
  Qed.

  Lemma wp_hl_grow_step_w fuel st j low split es es0 e int cl c Φ :
    es = es0 ++ [e] → memG_env → hl_shape j low split → hl_fields st j low split → int ##ₘ cl → (length es ≤ fuel)%nat →
    c = Z.of_nat (length es) → 0 < c < 2 ^ 59 →
    hl_load (hl_set_count st (c - 1)) j low split (c - 1) → hl_count st = c →
    hl_tab st j low split es int -∗ hctl (int ∪ cl) -∗
    (∀ st' x, ⌜0 ≤ x ≤ Z.of_nat (length es) ∧ x + hl_pot st' es ≤ hl_pot st es0 + 4⌝ -∗ tabR hashlin_table hl_rep st' es cl -∗ Φ (st', x)) -∗
    wp (hashlin_grow_step_w fuel st) Φ.
  Proof.
    iIntros (Hes Henv Hsh Hf Hdis Hfuel Hlen Hsz [_ Hl] Hc) "(%sg & %Hph & %Hint & HC) Hc HΦ".
    pose proof Hf as (Hb & Hm & Hmask & Hlm & Hlmask & Hsp).
    pose proof (hp_j _ _ _ Hph) as Hj. pose proof (pw_ge j) as Hp64. pose proof (pw_le j Hj) as Hple.
    cbn [hl_set_count hl_state] in Hl.
    assert (Hc0 : Z.of_nat (length es0) = c - 1) by (rewrite Hlen Hes app_length /=; lia).
    rewrite /hashlin_grow_step_w Hm.
    pose proof (pw_8 j) as Hp8. pose proof (Z.div_mod (pw j) 8 ltac:(lia)) as Hdm.
    assert (Hhalf : 2 * (pw j / 2) = pw j).
    { pose proof (Z.div_mod (pw j) 2 ltac:(lia)). pose proof (Z.mod_pos_bound (pw j) 2 ltac:(lia)). lia. }
    destruct Hl as [(Hst & -> & -> & Hl1 & Hl2)|[(Hst & Hs & Hbm & Hl1 & Hl2)|(Hst & Hs & Hbm & Hl1 & Hl2)]].
    - (* STABLE *)
      wp_bind. destruct (decide (pw j / 2 < c)) as [Hgrow|Hno].
      + iApply wp_if_true; [by rewrite Hst Hc|]. wp_bind. iApply wp_if_true; [done|].
        wp_bind. cbn [hl_set_low hl_low_max]. rewrite Hmask Hb.
        replace (wrap (pw j * 8)) with (pw j * 8) by (rewrite /wrap Z.mod_small; lia).
        assert (Hj53 : (S j ≤ 54)%nat).
        { destruct (decide (j = 54%nat)) as [->|]; [|lia]. change (pw 54) with (2 ^ 60) in *. lia. }
        pose proof (pw_S j) as Hdbl. pose proof (pw_le (S j) Hj53) as Hple'.
        rewrite /malloc Z.div_mul //.
        iApply (wp_alloc_region with "Hc"); [done|]. iIntros (a Ha Ham Hab Hlv _) "Hc Hcells".
        rewrite region_raw; [|by left]. iDestruct (hl_cells_ext with "HC Hcells") as "HC".
        apply lookup_union_None in Hlv as [Hlv Hlv2].
        assert (Hnew : ∀ i, (i ≤ j)%nat → sg i ≠ a).
        { intros i Hi. rewrite Hint in Hlv. apply (proj2 (segmap_None sg 0 (S j) a)); [done|lia]. }
        wp_bind. rewrite /hl_set. cbn [hl_bucket_bit]. iApply wp_if_true; [lia|]. wp_ret.
        wp_bind. rewrite /hl_set_bit. cbn [hl_bucket_bit]. rewrite Hb. iApply wp_if_true; [lia|]. wp_ret. wp_ret. wp_ret.
        cbn [hl_set_split hl_set_state hl_state hl_bucket hl_bucket_max hl_bucket_mask hl_low_max hl_low_mask hl_split hl_count hl_bucket_bit].
        rewrite shl64_pow; [|lia]. rewrite sub64_1; [|lia].
        replace (6 + Z.of_nat j + 1) with (6 + Z.of_nat (S j)) by lia. rewrite -/(pw (S j)).
        iApply wp_if_true; [done|].
        assert (Hmap : segmap (sg_ext sg j a) 0 (S (S j)) = <[a := RWords (Z.to_nat (pw j))]> int).
        { rewrite (segmap_snoc _ 0 (S j)).
          - rewrite Nat.add_0_l. f_equal.
            + rewrite /sg_ext decide_True //.
            + rewrite Hint. apply segmap_ext. intros i Hi. rewrite /sg_ext decide_False //. lia.
          - apply segmap_None. intros i Hi. rewrite Nat.add_0_l /sg_ext decide_False; [|lia].
            rewrite decide_True //. apply Hnew. lia. }
        iApply (wp_hl_grow_run_w _ _ j (sg_ext sg j a) 0 _ (<[a:=RWords (Z.to_nat (pw j))]> int) _ c with "HC [Hc] [HΦ]"); try done.
        * destruct Hph as [P1 P2 P3 P4 P5 P6 P7].
          assert (Hw : seg_ref a (- pw j) = wrap (a - 8 * pw j)) by (rewrite /seg_ref; f_equal; lia).
          split; cbn [hl_bucket].
          -- by rewrite insert_length.
          -- done.
          -- intros i Hi. rewrite list_lookup_insert_ne; [|lia]. rewrite P3 //.
          -- intros i Hi. destruct (decide (i = j)) as [->|].
             ++ replace (Z.to_nat (6 + Z.of_nat j)) with (6 + j)%nat by lia. rewrite list_lookup_insert; [|rewrite P1; clear -P2; lia].
                rewrite Hw /sg_ext decide_True //.
             ++ rewrite list_lookup_insert_ne; [|lia]. rewrite P4; [|lia]. rewrite /sg_ext decide_False //. lia.
          -- intros i Hi. rewrite /sg_ext. case_decide as Hd; [|apply P5; lia]. subst i.
             split; [done|]. cbn [segsize]. rewrite -/(pw j). cbn [region_bytes] in Hab. lia.
          -- intros x y Hx Hy. rewrite /sg_ext. case_decide; case_decide; intros Heq; subst; try done.
             ++ by destruct (Hnew y ltac:(lia)).
             ++ by destruct (Hnew x ltac:(lia)).
             ++ apply P6; [lia|lia|done].
          -- intros i Hi. rewrite /sg_ext. case_decide; [done|apply P7; lia].
        * lia.
        * by apply map_disjoint_insert_l_2.
        * lia.
        * lia.
        * lia.
        * lia.
        * rewrite insert_union_l. iExact "Hc".
        * iIntros (st' x [Hx1 Hx2]) "HR". iApply ("HΦ" with "[] HR"). iPureIntro. split; [done|]. pose proof (hl_tosplit_le (pw j) 0 es).
          rewrite (hl_pot_stable st) // Hc0 Hm. lia.
      + iApply wp_if_false; [rewrite Hc; lia|]. wp_ret.
        iApply wp_if_false; [by rewrite Hst|]. wp_ret. iApply "HΦ"; [iPureIntro; split; [lia|]; rewrite !hl_pot_stable // Hc0 -Hlen Hm; lia|].
        iApply (tabR_intro with "[HC] Hc"); [done|]. iExists j, (pw j), 0. iSplit; [done|]. iSplit; [done|].
        iSplit; [|iExists sg; by iFrame]. iPureIntro. rewrite -Hlen. split; [done|]. left. split_and!; try done; [lia|].
        destruct Hl2 as [|]; [by left|right; lia].
    - (* GROW *)
      wp_bind. iApply wp_if_false; [rewrite Hst; intros [? _]; done|]. wp_ret. iApply wp_if_true; [done|].
      destruct (hl_upper j low split Hsh Hbm) as (i & -> & -> & _).
      iApply (wp_hl_grow_run_w with "HC Hc [HΦ]"); try done; try lia.
      iIntros (st' x [Hx1 Hx2]) "HR". iApply ("HΦ" with "[] HR"). iPureIntro. split; [done|].
      pose proof (hl_tosplit_snoc (pw i) split es0 e) as Hts. rewrite -Hes in Hts. pose proof (pw_S i).
      rewrite (hl_pot_grow st) // Hc0 Hm Hlm Hsp. lia.
    - (* SHRINK *)
      destruct (hl_upper j low split Hsh Hbm) as (i & -> & -> & _).
      wp_bind. destruct (decide (pw (S i) / 2 < c)) as [Hgrow|Hno].
      + iApply wp_if_true; [by rewrite Hst Hc|]. wp_bind. iApply wp_if_false; [by rewrite Hst|]. wp_ret. wp_ret.
        iApply wp_if_true; [done|].
        iApply (wp_hl_grow_run_w _ (hl_set_state st STATE_GROW) i sg split _ int with "HC Hc [HΦ]"); try done; try lia.
        { eapply hl_phys_fields; [|exact Hph]; done. }
        iIntros (st' x [Hx1 Hx2]) "HR". iApply ("HΦ" with "[] HR"). iPureIntro. split; [done|].
        pose proof (hl_tosplit_le (pw i) split es). pose proof (pw_S i).
        rewrite (hl_pot_shrink st) // Hc0 Hlm. lia.
      + iApply wp_if_false; [rewrite Hc; lia|]. wp_ret.
        iApply wp_if_false; [by rewrite Hst|]. wp_ret. iApply "HΦ"; [iPureIntro; split; [lia|]; rewrite !hl_pot_shrink // Hc0 -Hlen Hlm; lia|].
        iApply (tabR_intro with "[HC] Hc"); [done|]. iExists (S i), (pw i), split. iSplit; [done|]. iSplit; [done|].
        iSplit; [|iExists sg; by iFrame]. iPureIntro. rewrite -Hlen. split; [done|]. right; right. split_and!; try done; lia.
  Qed.

  Lemma wp_hl_insert_w fuel st es p d h cl Φ : memG_env → fits fuel (S (length es)) → word h →
    tabR hashlin_table hl_rep st es cl -∗ freenode p -∗
    (∀ st' x, ⌜0 ≤ x ≤ Z.of_nat (length (es ++ [El p d (W h)])) ∧ x + hl_pot st' (es ++ [El p d (W h)]) ≤ hl_pot st es + 4⌝ -∗ tabR hashlin_table hl_rep st' (es ++ [El p d (W h)]) cl -∗ Φ (st', x)) -∗
    wp (hashlin_insert_w fuel st p d h) Φ.
  Proof.
    iIntros (Henv [Hfu Hsz] Hw) "(%int & %Hdis & (%j & %low & %split & %Hsh & %Hf & %Hl & (%sg & %Hph & %Hint & (%B & %Hg & HB & Hraw))) & Hc) Hp HΦ".
    rewrite /hashlin_insert_w. wp_bind. iApply wp_hl_ref; [done|done|done|].
    iApply (wp_tab_insert with "HB Hp"); [done|done|done|].
    iIntros (B' Hg') "HB". pose proof Hl as [Hcount _].
    assert (Hlen : length (es ++ [El p d (W h)]) = S (length es)) by (rewrite app_length /=; lia).
    rewrite Hcount. replace (wrap (Z.of_nat (length es) + 1)) with (Z.of_nat (S (length es))) by (rewrite /wrap Z.mod_small; lia).
    iApply (wp_hl_grow_step_w _ (hl_set_count st (Z.of_nat (S (length es)))) j low split _ es (El p d (W h)) int _ (Z.of_nat (S (length es))) with "[HB Hraw] Hc HΦ"); try done.
    - rewrite Hlen. lia.
    - by rewrite Hlen.
    - replace (Z.of_nat (S (length es)) - 1) with (Z.of_nat (length es)) by lia.
      destruct Hl as [_ Hl]. split; [done|]. exact Hl.
    - iExists sg. iSplit; [iPureIntro; eapply hl_phys_fields; [|exact Hph]; done|]. iSplit; [done|].
      iExists B'. iFrame "Hraw". iSplit; [done|]. iExact "HB".
  Qed.
End relink.
