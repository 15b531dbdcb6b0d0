(** * The growth of the dynamic hashtable once more, counting the elements that it
    links again.

    The functions [.._w] are those of HashDyn.v with one more result: the number
    of nodes appended to a bucket by the loop of tommyhashdyn.c:85-93. *)
From Verif Require Export HashDynProof.
Global Open Scope Z_scope.
Local Typeclasses Transparent nodeP freenode freenode_i lst.

(** tommyhashdyn.c:85-93 the while loop that reinserts the nodes of one bucket, counting *)
Fixpoint hashdyn_reinsert_w (fuel : nat) (new_bucket new_bucket_mask j : Z) : M (unit * Z) :=
  if decide (j = null) then mret (tt, 0) else
  match fuel with
  | O => fuel_out
  | S fuel =>
      j_next ← load (f_next j);
      index ← load (f_index j);
      let pos := Z.land index new_bucket_mask in
      head ← load (new_bucket + 8 * pos);
      (if decide (head ≠ null)
       then list_insert_tail_not_empty head j
       else list_insert_first (new_bucket + 8 * pos) j);;
      r ← hashdyn_reinsert_w fuel new_bucket new_bucket_mask j_next;
      mret (r.1, 1 + r.2)
  end.

(** tommyhashdyn.c:76-94 the for loop of growing, counting *)
Fixpoint hashdyn_grow_loop_w (fuel n : nat) (bucket bucket_max new_bucket new_bucket_mask i : Z) : M (unit * Z) :=
  match n with
  | O => mret (tt, 0)
  | S n =>
      store (new_bucket + 8 * i) null;;
      store (new_bucket + 8 * wrap (i + bucket_max)) null;;
      j ← load (bucket + 8 * i);
      u ← hashdyn_reinsert_w fuel new_bucket new_bucket_mask j;
      r ← hashdyn_grow_loop_w fuel n bucket bucket_max new_bucket new_bucket_mask (wrap (i + 1));
      mret (r.1, u.2 + r.2)
  end.

(** tommyhashdyn.c:53-115 tommy_hashdyn_resize, counting *)
Definition hashdyn_resize_w (fuel : nat) (t : hashdyn) (new_bucket_bit : Z) : M (hashdyn * Z) :=
  let bucket_bit := hd_bucket_bit t in
  let bucket_max := hd_bucket_max t in
  if decide (64 <= new_bucket_bit) then ub else
  let new_bucket_max := shl64 1 new_bucket_bit in
  let new_bucket_mask := sub64 new_bucket_max 1 in
  new_bucket ← malloc (wrap (new_bucket_max * 8));
  u ← (if decide (bucket_bit < new_bucket_bit)
   then hashdyn_grow_loop_w fuel (Z.to_nat bucket_max) (hd_bucket t) bucket_max new_bucket new_bucket_mask 0
   else hashdyn_shrink_loop (Z.to_nat new_bucket_max) (hd_bucket t) new_bucket new_bucket_max 0;; mret (tt, 0));
  free (hd_bucket t);;
  mret (HashDyn new_bucket new_bucket_max new_bucket_mask (hd_count t) new_bucket_bit, u.2).

(** tommyhashdyn.c:120-125 hashdyn_grow_step, counting *)
Definition hashdyn_grow_step_w (fuel : nat) (t : hashdyn) : M (hashdyn * Z) :=
  if decide (hd_bucket_max t / 2 <= hd_count t)
  then hashdyn_resize_w fuel t (hd_bucket_bit t + 1)
  else mret (t, 0).

(** tommyhashdyn.c:137-148 tommy_hashdyn_insert, counting *)
Definition hashdyn_insert_w (fuel : nat) (t : hashdyn) (node data hash : Z) : M (hashdyn * Z) :=
  let pos := Z.land hash (hd_bucket_mask t) in
  list_insert_tail (hashdyn_ref t pos) node data;;
  store (f_index node) hash;;
  hashdyn_grow_step_w fuel (hd_set_count t (wrap (hd_count t + 1))).

Section resize_w.
  Context `{!memG}.

  Lemma wp_hashdyn_reinsert_w xs fuel nb mask slot i0 i1 L0 L1 pv Φ :
    (length xs ≤ fuel)%nat → i0 ≠ i1 →
    Forall (λ x, hashed x ∧ nb + 8 * Z.land (e_h x) mask = nb + 8 * slot (e_h x) ∧
                 (slot (e_h x) = i0 ∨ slot (e_h x) = i1)) xs →
    dseg xs pv 0 -∗ lst (nb + 8 * i0) L0 -∗ lst (nb + 8 * i1) L1 -∗
    (lst (nb + 8 * i0) (L0 ++ part slot i0 xs) -∗ lst (nb + 8 * i1) (L1 ++ part slot i1 xs) -∗ Φ (tt, Z.of_nat (length xs))) -∗
    wp (hashdyn_reinsert_w fuel nb mask (hd_p xs 0)) Φ.
  Proof.
    revert fuel L0 L1 pv Φ. induction xs as [|x xs IH]; intros fuel L0 L1 pv Φ Hf Hne HF; iIntros "Hd H0 H1 HΦ".
    { destruct fuel; cbn [hd_p hashdyn_reinsert_w]; (iApply wp_if_true; [done|]); wp_ret; rewrite !app_nil_r; by iApply ("HΦ" with "H0 H1"). }
    destruct fuel as [|fuel]; simpl in Hf; [lia|]. apply Forall_cons in HF as [(Hh & Ha & Hs) HF].
    cbn [hd_p hashdyn_reinsert_w]. rewrite dseg_cons. iDestruct "Hd" as "[(%Hp&Hn&Hv&Hda&Hi) Hd]".
    iApply wp_if_false; [rewrite /null; lia|].
    destruct (hashed_e _ Hh) as [He _]. rewrite He. wp_load. wp_load. rewrite Ha.
    iAssert (nodeP x (hd_p xs 0) pv) with "[Hn Hv Hda Hi]" as "Hn".
    { rewrite /nodeP He. by iFrame. }
    assert (Hlen : 1 + Z.of_nat (length xs) = Z.of_nat (length (x :: xs))) by (cbn; lia).
    destruct Hs as [Hs|Hs]; rewrite Hs.
    - iApply (wp_append with "Hn H0"). iIntros "H0". wp_bind. iApply (IH with "Hd H0 H1"); [lia|done|done|].
      iIntros "H0 H1". wp_ret. cbn [fst snd]. rewrite Hlen. iApply ("HΦ" with "[H0] [H1]").
      + by rewrite /part filter_cons Hs decide_True // -app_assoc.
      + by rewrite /part filter_cons Hs decide_False.
    - iApply (wp_append with "Hn H1"). iIntros "H1". wp_bind. iApply (IH with "Hd H0 H1"); [lia|done|done|].
      iIntros "H0 H1". wp_ret. cbn [fst snd]. rewrite Hlen. iApply ("HΦ" with "[H0] [H1]").
      + by rewrite /part filter_cons Hs decide_False.
      + by rewrite /part filter_cons Hs decide_True // -app_assoc.
  Qed.

  Lemma wp_hashdyn_grow_loop_w n fuel b nb k i N (B : nat → list elem) Φ :
    (i + n)%nat = N → Z.of_nat N = 2 ^ k → 0 ≤ k ≤ 59 →
    (∀ j, (j < N)%nat → Forall hashed (B j) ∧ Forall (λ e, pslot k (e_h e) = Z.of_nat j) (B j) ∧ (length (B j) ≤ fuel)%nat) →
    ([∗ list] j ∈ seq i n, lst (vec b j) (B j) ∗ rawcell (vec nb j) ∗ rawcell (vec nb (N + j)%nat)) -∗
    (([∗ list] j ∈ seq i n, rawcell (vec b j) ∗ lst (vec nb j) (part (pslot (k + 1)) (Z.of_nat j) (B j)) ∗
        lst (vec nb (N + j)%nat) (part (pslot (k + 1)) (Z.of_nat (N + j)) (B j))) -∗
      Φ (tt, Z.of_nat (length (concatB B (seq i n))))) -∗
    wp (hashdyn_grow_loop_w fuel n b (2 ^ k) nb (2 ^ (k + 1) - 1) (Z.of_nat i)) Φ.
  Proof.
    revert i Φ. induction n as [|n IH]; intros i Φ Hi HN Hk HB; iIntros "H HΦ".
    { wp_ret. by iApply "HΦ". }
    pose proof (pow2_small k ltac:(lia)) as Hp. cbn [hashdyn_grow_loop_w seq]. rewrite big_sepL_cons.
    iDestruct "H" as "[([Hl Hd] & (%c0 & %Hc0 & H0) & (%c1 & %Hc1 & H1)) H]".
    assert (Hw : wrap (Z.of_nat i + 2 ^ k) = Z.of_nat (N + i)) by (rewrite /wrap Z.mod_small; lia).
    rewrite Hw. rewrite /vec. wp_store. wp_store. wp_load. wp_bind.
    destruct (HB i ltac:(lia)) as (Hh & Hs & Hlen).
    iApply (wp_hashdyn_reinsert_w _ _ _ _ (pslot (k + 1)) (Z.of_nat i) (Z.of_nat (N + i)) [] [] with "Hd [H0] [H1]").
    - done.
    - lia.
    - apply Forall_forall. intros x Hx. rewrite Forall_forall in Hh. rewrite Forall_forall in Hs.
      split; [by apply Hh|]. split; [rewrite land_ones_mod //; lia|].
      specialize (Hs x Hx). simpl in Hs. destruct (pslot_S_cases k (e_h x)) as [->| ->]; [lia|left; done|right; lia].
    - rewrite /lst /=. by iFrame.
    - rewrite /lst /=. by iFrame.
    - iIntros "H0 H1". replace (wrap (Z.of_nat i + 1)) with (Z.of_nat (S i)) by (rewrite /wrap Z.mod_small; lia). wp_bind.
      iApply (IH with "H"); [lia|done|done|done|]. iIntros "H". wp_ret. cbn [fst snd]. rewrite -Nat2Z.inj_add.
      replace (length (B i) + length (concatB B (seq (S i) n)))%nat with (length (concatB B (seq i (S n))))
        by (cbn; by rewrite app_length).
      iApply "HΦ". cbn [seq]. rewrite big_sepL_cons.
      iFrame "H". simpl. iFrame. iExists _. iFrame. iPureIntro. right. by eexists.
  Qed.
  Lemma wp_hashdyn_grow_w fuel st k es int cl Φ :
    memG_env → hd_struct st k → k ≤ 59 → (length es ≤ fuel)%nat → int ##ₘ cl →
    hd_tab st k es int -∗ hctl (int ∪ cl) -∗ hd_resized st (k + 1) es cl (λ st', Φ (st', Z.of_nat (length es))) -∗
    wp (hashdyn_resize_w fuel st (k + 1)) Φ.
  Proof.
    iIntros (Henv (Hk & Hbit & Hmax & Hmask & Hpos) Hk' Hf Hdis) "(%B & -> & %Hg & HB) Hc HΦ".
    rewrite /hashdyn_resize_w Hbit Hmax. iApply wp_if_false; [lia|].
    rewrite shl64_pow; [|lia]. rewrite sub64_1; [|lia]. pose proof (pow2_small k ltac:(lia)) as Hp.
    assert (H2 : 2 ^ (k + 1) = 2 ^ k + 2 ^ k) by (rewrite Z.pow_add_r; lia).
    pose proof (pow2_small (k + 1) ltac:(lia)) as Hp2.
    assert (Hw : wrap (2 ^ (k + 1) * 8) = 2 ^ (k + 1) * 8) by (rewrite /wrap Z.mod_small; lia).
    rewrite Hw. wp_bind. rewrite /malloc Z.div_mul //.
    iApply (wp_alloc_region with "Hc"); [done|]. iIntros (a Ha Ham Hab Hal _) "Hc Hcells".
    rewrite region_raw; [|by left].
    assert (H2n : Z.to_nat (2 ^ (k + 1)) = (Z.to_nat (2 ^ k) + Z.to_nat (2 ^ k))%nat) by lia.
    assert (HN : Z.of_nat (Z.to_nat (2 ^ k)) = 2 ^ k) by lia.
    remember (Z.to_nat (2 ^ k)) as N eqn:HNeq in *. rewrite H2n seq_double big_sepL_app (big_sepL_seq_shift _ N).
    iDestruct "Hcells" as "[Hc0 Hc1]".
    wp_bind. iApply wp_if_true; [lia|].
    iApply (wp_hashdyn_grow_loop_w N fuel (hd_bucket st) a k 0 N B with "[HB Hc0 Hc1]").
    - done.
    - lia.
    - lia.
    - intros j Hj. split; [by eapply good_hashed_B|]. split; [by eapply good_in|].
      etrans; [by eapply good_length|done].
    - iApply big_sep3. iSplitL "HB"; [iExact "HB"|]. iSplitL "Hc0"; [iExact "Hc0"|iExact "Hc1"].
    - iIntros "H". rewrite big_sep3. iDestruct "H" as "(Hb & H0 & H1)".
      destruct (fresh_single a _ _ (RWords (N + N)) cl Hal Hdis) as (Hda & Hdel & Hlk).
      wp_bind. iApply (wp_free _ _ with "Hc [Hb]"); [destruct Hpos; lia|exact Hlk| |].
      { by iApply rawcells_region. }
      iIntros "Hc". rewrite Hdel. wp_ret. cbn [fst snd].
      rewrite (Permutation_length (good_perm _ _ _ _ Hg)). iApply ("HΦ" with "[] [] [] [H0 H1] Hc").
      { iPureIntro. rewrite /hd_struct /= H2n. split_and!; try done || lia. apply block_ok_16; [done|done|simpl in Hab |- *; lia]. } { done. } { done. }
      iExists (λ i, part (pslot (k + 1)) (Z.of_nat i) (B (if decide (i < N)%nat then i else (i - N)%nat))). simpl.
      iSplit; [by rewrite H2n|]. iSplit.
      + iPureIntro. eapply (good_part N (pslot k)); [done| | |].
        * intros h _. apply pslot_range. lia.
        * intros i Hi. case_decide; lia.
        * intros h _. pose proof (pslot_range k h ltac:(lia)).
          destruct (pslot_S_cases k h ltac:(lia)) as [->| ->]; case_decide; lia.
      + rewrite H2n /bks seq_double big_sepL_app (big_sepL_seq_shift _ N). iSplitL "H0".
        * iApply (big_sepL_impl with "H0"). iIntros "!>" (i j [-> Hj]%lookup_seq) "H". rewrite decide_True //.
        * iApply (big_sepL_impl with "H1"). iIntros "!>" (i j [-> Hj]%lookup_seq) "H".
          rewrite decide_False; [|lia]. by replace (N + (0 + i) - N)%nat with (0 + i)%nat by lia.
  Qed.


  Lemma wp_hd_insert_w fuel st es p d h cl Φ : memG_env → fits fuel (S (length es)) → word h →
    tabR hashdyn_table hd_rep st es cl -∗ freenode p -∗
    (∀ st' x, ⌜0 ≤ x ≤ Z.of_nat (S (length es))⌝ -∗ tabR hashdyn_table hd_rep st' (es ++ [El p d (W h)]) cl -∗ Φ (st', x)) -∗
    wp (hashdyn_insert_w fuel st p d h) Φ.
  Proof.
    iIntros (Henv [Hf Hsz] Hw) "(%int & %Hdis & (%k & %Hs & %Hl & (%B & %Hint & %Hg & HB)) & Hc) Hp HΦ".
    rewrite /hashdyn_insert_w.
    iApply (wp_tab_insert with "HB Hp"); [done|done| |].
    { destruct Hs as (?&?&?&Hmask&?). rewrite /hashdyn_ref Hmask. apply vec_pslot. lia. }
    iIntros (B' Hg') "HB". destruct Hl as (Hcount & Hl1 & Hl2).
    pose proof Hs as (Hk & Hbit & Hmax & Hmask & Hpos). pose proof (pow2_small k ltac:(lia)).
    rewrite Hcount. replace (wrap (Z.of_nat (length es) + 1)) with (Z.of_nat (S (length es))) by (rewrite /wrap Z.mod_small; lia).
    set (st1 := hd_set_count st (Z.of_nat (S (length es)))).
    assert (Hs1 : hd_struct st1 k) by done.
    iAssert (hd_tab st1 k (es ++ [El p d (W h)]) int) with "[HB]" as "HB".
    { iExists B'. by iFrame. }
    rewrite /hashdyn_grow_step_w. rewrite {1}/st1 /= Hmax.
    assert (Hev : 2 ^ k = 2 * 2 ^ (k - 1)).
    { rewrite -{1}(Z.sub_add 1 k) Z.pow_add_r; lia. }
    assert (Hdiv : 2 ^ k / 2 = 2 ^ (k - 1)) by (rewrite Hev Z.mul_comm Z.div_mul //).
    assert (Hlen : length (es ++ [El p d (W h)]) = S (length es)) by (rewrite app_length /=; lia).
    destruct (decide (2 ^ k / 2 ≤ Z.of_nat (S (length es)))) as [Hgrow|Hno].
    - rewrite Hbit.
      assert (k ≤ 59).
      { destruct (decide (k ≤ 59)); [done|]. assert (2 ^ 59 ≤ 2 ^ (k - 1)) by (apply Z.pow_le_mono_r; lia). lia. }
      iApply (wp_hashdyn_grow_w with "HB Hc"); [done|done|done|lia|done|].
      iIntros (st' int' Hs' Hc' Hd') "HB Hc". iApply "HΦ"; [iPureIntro; rewrite ?Hlen; lia|]. iApply (tabR_intro with "[HB] Hc"); [done|].
      iExists (k + 1). iFrame. iPureIntro. split; [done|]. rewrite /hd_load Hlen.
      split; [done|]. rewrite Z.pow_add_r; [|lia..]. split; [lia|]. right. lia.
    - wp_ret. iApply "HΦ"; [iPureIntro; rewrite ?Hlen; lia|]. iApply (tabR_intro with "[HB] Hc"); [done|]. iExists k. iFrame. iPureIntro.
      split; [done|]. rewrite /hd_load Hlen. split; [done|]. split; [lia|]. destruct Hl2 as [|]; [by left|right]. lia.
  Qed.
End resize_w.
