(** * With enough memory every history of the allocator and of the trie completes. *)
From Verif Require Export Room AllocHist TrieHist.
Global Open Scope Z_scope.

Lemma roomy_carve b fuel bs d s f : roomy b 0 any (allocator_carve fuel bs d s f).
Proof. revert d s f. induction fuel; intros; simpl; roomy_all. Qed.
Lemma roomy_alloc b t : al_ok b t → roomy b 1 (λ r, al_ok b r.2) (allocator_alloc t).
Proof.
  intros Ht. rewrite /allocator_alloc. apply (roomy_bind1 _ _ (al_ok b)).
  - case_decide; [|by apply roomy_ret]. rewrite /allocator_refill. cbv zeta. rewrite /al_ok in Ht.
    apply (roomy_bind1 _ _ any); [|intros; pose proof roomy_carve; roomy_all; exact Ht].
    change ALLOCATOR_BLOCK_SIZE with 4032. apply roomy_malloc; [lia|]. case_decide; lia.
  - intros t' Ht'. cbv zeta. roomy_all. exact Ht'.
Qed.
Lemma roomy_al_free b t p : al_ok b t → roomy b 0 (al_ok b) (allocator_free t p).
Proof. intros Ht. rewrite /allocator_free. roomy_all. exact Ht. Qed.
Lemma roomy_al_done b t : al_ok b t → roomy b 0 (al_ok b) (allocator_done t).
Proof.
  intros Ht m. rewrite /allocator_done /allocator_reset. generalize (size m). intros n. revert m.
  change (roomy b 0 (al_ok b) (allocator_reset_loop n (al_used_segment t);;
    mret (Allocator 0 0 (al_block_size t) (al_align_size t) 0))).
  roomy_all; [|exact Ht]. generalize (al_used_segment t). induction n; intros; simpl; roomy_all.
Qed.
Lemma allocator_completes_ok : allocator_completes.
Proof.
  intros live m c base stride n Hl Ha He Hroom Hcost Hsp.
  pose proof (alloc_history live m c Hl Ha) as Hh.
  destruct (run pstep None c m) as [r m'| |n'|] eqn:Er; [by eauto|done| |done]. exfalso. clear Hh.
  eapply (run_room_every pstep stride pcost ltac:(by intros []) (all_ok stride) (prequest stride) c _ He None);
    [done|exact Hroom|exact Hcost|exact Hsp|exact Er]. Unshelve.
  intros cs o Hcs Ho. destruct o; simpl; [|destruct cs as [t|]; simpl in Hcs; [|apply roomy_ub]..].
  - apply roomy_ret; [done|]. simpl. destruct Ho as (? & ? & ?). by apply al_ok_init.
  - eapply roomy_bind1; [by apply roomy_alloc|]. intros r Hr. by apply roomy_ret.
  - eapply roomy_bind1; [by apply roomy_al_free|]. intros r Hr. by apply roomy_ret.
  - by apply roomy_ret.
  - roomy_all. exact Hcs.
  - roomy_all. exact Hcs.
  - eapply roomy_bind1; [by apply roomy_al_done|]. intros r Hr. by apply roomy_ret.
Qed.

Lemma roomy_clear b a n : roomy b 0 any (clear_loop a n).
Proof. revert a. induction n; intros; simpl; roomy_all. Qed.
Lemma roomy_digit b k s : roomy b 0 any (trie_digit k s).
Proof. rewrite /trie_digit /shr_key. roomy_all. Qed.
(** Inner nodes made below a shift.  A shift that wraps is undefined behaviour,
    but the node is allocated first. *)
Definition levels (s : Z) : Z := if decide (0 ≤ s ≤ 27) then s / 3 + 2 else 1.
Lemma levels_pos s : 1 ≤ levels s ≤ 11.
Proof.
  rewrite /levels. case_decide; [|lia]. pose proof (Z.div_pos s 3). assert (s / 3 < 10) by (apply Z.div_lt_upper_bound; lia). lia.
Qed.
Lemma levels_next s : (0 ≤ s ≤ 27) → 1 + levels (sub32 s TRIE_TREE_BIT) ≤ levels s.
Proof.
  intros Hs. rewrite {2}/levels decide_True; [|done]. rewrite /sub32. change TRIE_TREE_BIT with 3.
  destruct (decide (3 ≤ s)).
  - rewrite Z.mod_small; [|lia]. rewrite /levels decide_True; [|lia].
    replace (s - 3) with (s + (-1) * 3) by lia. rewrite Z.div_add; lia.
  - rewrite /levels decide_False; [pose proof (Z.div_pos s 3); lia|].
    intros Hc. assert ((s - 3) mod 2 ^ 32 = s - 3 + 2 ^ 32); [|lia].
    symmetry. apply (Z.mod_unique _ _ (-1)); lia.
Qed.
Definition shift_ok (s : Z) : Prop := 0 ≤ s ≤ 27 ∨ 64 ≤ s.
Lemma shift_ok_next s : 0 ≤ s ≤ 27 → shift_ok (sub32 s TRIE_TREE_BIT).
Proof.
  intros Hs. rewrite /shift_ok /sub32. change TRIE_TREE_BIT with 3. destruct (decide (3 ≤ s)).
  - rewrite Z.mod_small; lia.
  - right. assert ((s - 3) mod 2 ^ 32 = s - 3 + 2 ^ 32); [|lia]. symmetry. apply (Z.mod_unique _ _ (-1)); lia.
Qed.
Lemma roomy_digit_ok b k s : shift_ok s → roomy b 0 (λ _, 0 ≤ s ≤ 27) (trie_digit k s).
Proof.
  intros Hs. rewrite /trie_digit /shr_key. destruct (decide (s < 64)); [|done].
  intros m base Hm. simpl. split; [destruct Hs; lia|]. exists 0. split; [done|]. by apply room_0.
Qed.
Lemma roomy_expand b fuel al nc s lp node ins key : al_ok b al → shift_ok s →
  roomy b (levels s) (λ r, al_ok b r.1) (trie_expand fuel al nc s lp node ins key).
Proof.
  pose proof roomy_clear. pose proof roomy_digit. pose proof roomy_insert_first.
  revert al nc s lp. induction fuel as [|fuel IH]; intros al nc s lp Hal Hs; cbn [trie_expand];
    (pose proof (levels_pos s); replace (levels s) with (1 + (levels s - 1)) by lia;
     eapply roomy_bind; [by apply roomy_alloc| |lia]; intros r Hr; cbv zeta;
     do 3 (apply roomy_bind0; [lia|by roomy_all|intros ?]);
     replace (levels s - 1) with (0 + (levels s - 1)) by lia;
     eapply roomy_bind; [by apply roomy_digit_ok| |lia]; intros i Hs'; apply roomy_bind0; [lia|by apply roomy_digit|intros j];
     case_decide; [do 2 (apply roomy_bind0; [lia|by roomy_all|intros ?]); apply roomy_ret; [lia|exact Hr]|]);
    [apply roomy_fuel|].
  pose proof (levels_next s Hs'). eapply roomy_mono; [by apply IH, shift_ok_next|lia|done].
Qed.
Lemma roomy_bucket_insert b fuel al nc s lp ins key : al_ok b al → shift_ok s →
  roomy b 11 (λ r, al_ok b r.1) (trie_bucket_insert fuel al nc s lp ins key).
Proof.
  intros Hal. pose proof roomy_digit. pose proof roomy_insert_first. pose proof roomy_insert_tail_ne.
  revert nc s lp. induction fuel as [|fuel IH]; intros nc s lp Hs; cbn [trie_bucket_insert];
    (apply roomy_bind0; [lia|by roomy_all|intros ptr]; case_decide;
     [apply roomy_bind0; [lia|by roomy_all|intros ?]; by apply roomy_ret|]; case_decide;
     [change 11 with (0 + 11); eapply roomy_bind; [by apply roomy_digit_ok| |done]; intros d Hs'; first [apply roomy_fuel|by apply IH, shift_ok_next]|];
     apply roomy_bind0; [lia|by roomy_all|intros ix]; case_decide;
     [apply roomy_bind0; [lia|by roomy_all|intros ?]; by apply roomy_ret|];
     pose proof (levels_pos s); eapply roomy_mono; [by apply roomy_expand|lia|done]).
Qed.
Lemma roomy_let_ptr b t k : roomy b 0 any (trie_let_ptr t k).
Proof. rewrite /trie_let_ptr /shr_key. roomy_all. Qed.
Lemma roomy_scan b n tree i c l : roomy b 0 any (trie_scan n tree i c l).
Proof. revert i c l. induction n; intros; simpl; roomy_all. Qed.
Lemma roomy_reduce b path al nc : al_ok b al → roomy b 0 (λ r, al_ok b r.1) (trie_reduce path al nc).
Proof.
  pose proof roomy_scan. revert al nc. induction path as [|lp path IH]; intros al nc Hal; simpl; [by apply roomy_ret|].
  apply roomy_bind0; [done|by roomy_all|intros ptr]. apply roomy_bind0; [done|by roomy_all|intros r].
  destruct r as [[c l]|]; [|by apply roomy_ret].
  do 3 (apply roomy_bind0; [done|by roomy_all|intros ?]).
  eapply roomy_bind1; [by apply roomy_al_free|]. intros al' Hal'. by apply IH.
Qed.
Lemma roomy_tri_remove b fuel al nc s lp rm key path : al_ok b al →
  roomy b 0 (λ r, al_ok b r.2.1) (trie_bucket_remove_existing fuel al nc s lp rm key path).
Proof.
  intros Hal. pose proof roomy_digit. pose proof roomy_remove_existing.
  revert nc s lp path. induction fuel as [|fuel IH]; intros nc s lp path; simpl;
    (apply roomy_bind0; [done|by roomy_all|intros ptr]; case_decide; [by apply roomy_ret|]; case_decide;
     [do 2 (apply roomy_bind0; [done|by roomy_all|intros ?]); first [apply roomy_fuel|apply IH]|];
     apply roomy_bind0; [done|by roomy_all|intros rm']; case_decide; [by apply roomy_ret|];
     do 2 (apply roomy_bind0; [done|by roomy_all|intros ?]);
     eapply roomy_bind1; [|intros r Hr; apply roomy_ret; [done|exact Hr]];
     case_decide; [by apply roomy_ret|by apply roomy_reduce]).
Qed.
Lemma roomy_tri_bucket_loop b fuel s ptr k : roomy b 0 any (trie_bucket_loop fuel s ptr k).
Proof.
  revert s ptr. induction fuel as [|fuel IH]; intros s ptr; cbn [trie_bucket_loop];
    (case_decide; [by apply roomy_ret|]; case_decide; [roomy_all|];
     apply roomy_bind0; [done|apply roomy_digit|intros ?]; apply roomy_bind0; [done|apply roomy_load|intros ?]);
    [apply roomy_fuel|apply IH].
Qed.
Lemma roomy_tri_bucket b fuel t k : roomy b 0 any (trie_bucket fuel t k).
Proof.
  apply roomy_bind0; [done|apply roomy_let_ptr|intros ?]. apply roomy_bind0; [done|apply roomy_load|intros ?].
  apply roomy_tri_bucket_loop.
Qed.
Lemma roomy_trie_insert b fuel t al node d k : al_ok b al → roomy b 11 (λ r, al_ok b r.2) (trie_insert fuel t al node d k).
Proof.
  intros Hal. pose proof roomy_let_ptr. rewrite /trie_insert. do 3 (apply roomy_bind0; [done|by roomy_all|intros ?]).
  eapply roomy_bind1; [apply roomy_bucket_insert; [done|]|].
  - left. change TRIE_BUCKET_SHIFT with 27. lia.
  - intros r Hr. by apply roomy_ret.
Qed.
Lemma roomy_trie_remove b fuel t al k : al_ok b al → roomy b 0 (λ r, al_ok b r.1.2) (trie_remove fuel t al k).
Proof.
  intros Hal. pose proof roomy_let_ptr. rewrite /trie_remove. apply roomy_bind0; [done|by roomy_all|intros ?].
  eapply roomy_bind1; [by apply roomy_tri_remove|]. intros r Hr. case_decide; [by apply roomy_ret|]. roomy_all. exact Hr.
Qed.
Lemma roomy_trie_remove_existing b fuel t al p : al_ok b al → roomy b 0 (λ r, al_ok b r.1.2) (trie_remove_existing fuel t al p).
Proof.
  intros Hal. pose proof roomy_let_ptr. rewrite /trie_remove_existing. do 2 (apply roomy_bind0; [done|by roomy_all|intros ?]).
  eapply roomy_bind1; [by apply roomy_tri_remove|]. intros r Hr. roomy_all. exact Hr.
Qed.
Lemma trie_completes_ok : trie_completes.
Proof.
  intros om tb live m fuel c base stride n Hs Hf Ha He Hroom Hcost Hsp.
  pose proof (trie_history_both om tb live m fuel c Hs Hf Ha) as Hh.
  destruct (run (xstep fuel tb) None c m) as [r m'| |n'|] eqn:Er; [by eauto|done| |done]. exfalso. clear Hh.
  eapply (run_room_every (xstep fuel tb) stride xcost ltac:(by intros [|[]| | | | | |]) (xall_ok stride) (xrequest stride) c _ He None);
    [done|exact Hroom|exact Hcost|exact Hsp|exact Er]. Unshelve.
  intros cs o Hcs Ho.
  destruct o as [bs al|[]| | |p j v|p| |]; cbn [xstep xcost]; [|destruct cs as [[t al]|]; simpl in Hcs; [|apply roomy_ub]..].
  - apply roomy_bind0; [done| |].
    { apply roomy_bind0; [done|apply roomy_clear|intros; by apply roomy_ret]. }
    intros t. apply roomy_ret; [done|]. simpl. destruct Ho as (? & ? & ?). by apply al_ok_init.
  - eapply roomy_bind1; [by apply roomy_trie_insert|]. intros r Hr. by apply roomy_ret.
  - eapply roomy_bind1; [by apply roomy_trie_remove|]. intros r Hr. by apply roomy_ret.
  - eapply roomy_bind1; [by apply roomy_trie_remove_existing|]. intros r Hr. by apply roomy_ret.
  - apply roomy_bind0; [done| |intros; by apply roomy_ret].
    apply roomy_bind0; [done|apply roomy_tri_bucket|intros; roomy_all].
  - apply roomy_bind0; [done|apply roomy_tri_bucket|intros ?].
    apply roomy_bind0; [done|apply roomy_walk|intros; by apply roomy_ret].
  - by apply roomy_ret.
  - by apply roomy_ret.
  - eapply roomy_bind1; [by apply roomy_alloc|]. intros r Hr. by apply roomy_ret.
  - roomy_all. exact Hcs.
  - eapply roomy_bind1; [by apply roomy_al_free|]. intros r Hr. by apply roomy_ret.
  - by apply roomy_ret.
  - eapply roomy_bind1; [by apply roomy_al_done|]. intros r Hr. by apply roomy_ret.
Qed.
