(** * The number of accesses of the sort and of the visits. *)
From Verif Require Export Cost ListHist.
From Verif Require Import Chain Tree HashTbl HashDyn HashLin.
Global Open Scope Z_scope.

Section paid.
  Variables (w t : Z) (f : list Z → Z → Z → M Z).
  Implicit Types n : Z.
  (** Every word written on the tape, by a comparison or by a callback, pays for [w]
      accesses; [n] are not paid for. *)
  Definition paid n {A} (c : M A) : Prop :=
    ∀ m ws, m !! t = Some (Tape ws) → ∃ l, logged c m l (c m) ∧
      ∀ v m', c m = Ok v m' → ∃ ws', m' !! t = Some (Tape ws') ∧
        Z.of_nat (length l) + w * Z.of_nat (length ws) ≤ n + w * Z.of_nat (length ws').
  Lemma pd_le {A} n n' (c : M A) : paid n' c → n' ≤ n → paid n c.
  Proof.
    intros H Hn m ws Hm. destruct (H m ws Hm) as (l & H1 & H2). exists l. split; [done|]. intros v m' E.
    destruct (H2 _ _ E) as (ws' & H3 & H4). exists ws'. split; [done|lia].
  Qed.
  Lemma pd_bind {A B} n1 n2 (c : M A) (k : A → M B) : paid n1 c → (∀ v, paid n2 (k v)) → paid (n1 + n2) (c ≫= k).
  Proof.
    intros Hc Hk m ws Hm. destruct (Hc m ws Hm) as (l & H1 & H2). unfold mbind, M_bind.
    destruct (c m) as [v m'| |e|] eqn:E.
    - destruct (H2 _ _ eq_refl) as (ws' & Hm' & Hl). destruct (Hk v m' ws' Hm') as (l' & H1' & H2'). exists (l ++ l').
      split; [by eapply lg_bind|]. intros v' m'' E'. destruct (H2' _ _ E') as (ws'' & Hm'' & Hl'). exists ws''. split; [done|].
      rewrite app_length. lia.
    - exists l. by split; [apply lg_bind_ub|].
    - exists l. by split; [apply lg_bind_env|].
    - exists l. by split; [apply lg_bind_fuel|].
  Qed.
  Lemma pd_if {A} n1 n2 (P : Prop) `{Decision P} (c1 c2 : M A) :
    paid n1 c1 → paid n2 c2 → paid (n1 `max` n2) (if decide P then c1 else c2).
  Proof. intros H1 H2. destruct (decide P); (eapply pd_le; [done|lia]). Qed.
  Lemma pd_ret {A} (v : A) : paid 0 (mret v).
  Proof. intros m ws Hm. exists []. split; [constructor|]. intros v' m' [= <- <-]. exists ws. split; [done|simpl; lia]. Qed.
  Lemma pd_ub {A} n : paid n (@ub A).
  Proof. intros m ws Hm. exists []. by split; [constructor|]. Qed.
  Lemma pd_fuel {A} n : paid n (@fuel_out A).
  Proof. intros m ws Hm. exists []. by split; [constructor|]. Qed.
  Lemma pd_load a : paid 1 (load a).
  Proof.
    intros m ws Hm. exists [AWord a]. split; [constructor|]. intros v m'. unfold load.
    destruct (m !! a) as [[]|]; try done. intros [= <- <-]. exists ws. split; [done|simpl; lia].
  Qed.
  Lemma pd_store a v : paid 1 (store a v).
  Proof.
    intros m ws Hm. exists [AWord a]. split; [constructor|]. intros v' m'. unfold store.
    destruct (decide (a = t)) as [->|Hne]; [by rewrite Hm|].
    destruct (m !! a) as [[]|]; try done; intros [= <- <-]; exists ws; (split; [by rewrite lookup_insert_ne|simpl; lia]).
  Qed.
  Lemma pd_cmp a b : paid (- (2 * w)) (tape_cmp t f a b).
  Proof.
    intros m ws Hm. exists []. split; [constructor|]. intros v m'. unfold tape_cmp. rewrite Hm.
    destruct (f ws a b m) as [r m1| | |]; try done. intros [= <- <-]. exists (ws ++ [a; b]).
    split; [by rewrite lookup_insert|]. rewrite app_length. simpl. lia.
  Qed.
  Lemma pd_push a : paid (- w) (tape_push t a).
  Proof.
    intros m ws Hm. exists []. split; [constructor|]. intros v m'. unfold tape_push. rewrite Hm. intros [= <- <-].
    exists (ws ++ [a]). split; [by rewrite lookup_insert|]. rewrite app_length. simpl. lia.
  Qed.
End paid.
Create HintDb pd discriminated.
Global Hint Constants Opaque : pd.
Global Hint Resolve pd_ret pd_load pd_store pd_cmp pd_push : pd.
Ltac pd1 := first [solve [eauto with pd nocore]|eapply pd_bind; [|intros ?]|eapply pd_if].
Ltac pd := eapply pd_le; [repeat pd1|try lia].


Section sort.
  Variables (t : Z) (f : list Z → Z → Z → M Z).
  Notation paid := (paid 4 t).
  Lemma pd_concat a b : paid 2 (chain_concat a b). Proof. unfold chain_concat. pd. Qed.
  Lemma pd_splice a b c d : paid 4 (chain_splice a b c d). Proof. unfold chain_splice. pd. Qed.
  Local Hint Resolve pd_concat pd_splice : pd.
  Lemma pd_merge_loop fuel : ∀ a b c d e, paid 0 (chain_merge_loop fuel (tape_cmp t f) a b c d e).
  Proof. induction fuel as [|fuel IH]; intros a b c d e; cbn [chain_merge_loop]; [apply pd_fuel|]. pd. Qed.
  Local Hint Resolve pd_merge_loop : pd.
  Lemma pd_merge fuel a b : paid 0 (chain_merge fuel a b (tape_cmp t f)). Proof. unfold chain_merge. pd. Qed.
  Local Hint Resolve pd_merge : pd.
  Lemma pd_degenerated fuel a b : paid 0 (chain_merge_degenerated fuel a b (tape_cmp t f)).
  Proof. unfold chain_merge_degenerated. pd. Qed.
  Lemma pd_bit_get bit i : paid 0 (bit_get bit i).
  Proof. unfold bit_get. repeat case_match; (apply pd_ret || apply pd_ub). Qed.
  Lemma pd_bit_set bit i c : paid 0 (bit_set bit i c).
  Proof. unfold bit_set. case_match; (apply pd_ret || apply pd_ub). Qed.
  Local Hint Resolve pd_degenerated pd_bit_get pd_bit_set : pd.
  Lemma pd_carry fuel (n : nat) : ∀ i mask last bit, paid 0 (chain_carry_loop fuel (tape_cmp t f) n i mask last bit).
  Proof.
    induction n as [|n IH]; intros i mask last bit; cbn [chain_carry_loop].
    - case_match; [apply pd_fuel|apply pd_ret].
    - pd.
  Qed.
  Local Hint Resolve pd_carry : pd.
  Lemma pd_add fuel counter node bit : paid 0 (chain_add fuel (tape_cmp t f) counter node bit).
  Proof.
    unfold chain_add. eapply pd_le; [eapply pd_bind; [apply pd_bit_set|intros b1]; eapply (pd_bind _ _ _ 0); [apply pd_carry|intros [[i last] b2]]|lia].
    pd.
  Qed.
  Local Hint Resolve pd_add : pd.
  Lemma pd_add_loop fuel (n : nat) : ∀ counter node tail bit,
    paid (Z.of_nat n) (chain_add_loop fuel (tape_cmp t f) n counter node tail bit).
  Proof. induction n as [|n IH]; intros counter node tail bit; cbn [chain_add_loop]; [apply pd_fuel|]. pd. Qed.
  Lemma pd_final fuel (n : nat) : ∀ i mask bit, paid 0 (chain_final_loop fuel (tape_cmp t f) n i mask bit).
  Proof.
    induction n as [|n IH]; intros i mask bit; cbn [chain_final_loop]; cbn zeta.
    - case_match; [apply pd_ret|apply pd_fuel].
    - pd.
  Qed.
  Lemma pd_ctz x : paid 0 (ctz x).
  Proof. unfold ctz. repeat case_match; (apply pd_ret || apply pd_ub). Qed.
  Lemma pd_mergesort fuel ch : paid (Z.of_nat fuel) (chain_mergesort fuel ch (tape_cmp t f)).
  Proof.
    unfold chain_mergesort. eapply pd_le; [eapply (pd_bind _ _ _ 0); [apply pd_add_loop|intros [counter bit]]|lia].
    eapply pd_le; [eapply pd_bind; [apply pd_ctz|intros i]; eapply (pd_bind _ _ _ 0); [apply pd_final|intros [i' bit']]|lia].
    apply pd_bit_get.
  Qed.
  Local Hint Resolve pd_mergesort : pd.
  Lemma pd_sort fuel l : paid (Z.of_nat fuel + 6) (list_sort fuel l (tape_cmp t f)).
  Proof. unfold list_sort, list_empty, list_head, list_set. pd. Qed.
End sort.

Section visits.
  Variables (w t : Z).
  Implicit Types n : Z.
  Notation paid := (paid w t).
  Lemma pd_foreach_loop fuel : 2 ≤ w → ∀ i, paid 0 (list_foreach_loop fuel i (tape_push t)).
  Proof.
    intros Hw. induction fuel as [|fuel IH]; intros i; cbn [list_foreach_loop].
    - case_match; [apply pd_ret|apply pd_fuel].
    - pd.
  Qed.
  Lemma pd_list_foreach fuel l : 2 ≤ w → paid 1 (list_foreach fuel l (tape_push t)).
  Proof. intros Hw. unfold list_foreach, list_head. eapply pd_le; [eapply (pd_bind _ _ 1 0); [apply pd_load|intros i; by apply pd_foreach_loop]|lia]. Qed.
  Lemma pd_buckets fuel (n : nat) ref : 2 ≤ w → (∀ pos, paid 0 (ref pos)) → ∀ pos,
    paid (Z.of_nat n) (buckets_foreach fuel n pos ref (tape_push t)).
  Proof.
    intros Hw Hr. induction n as [|n IH]; intros pos; cbn [buckets_foreach]; [apply pd_ret|].
    eapply pd_le; [eapply pd_bind; [apply Hr|intros b]; eapply pd_bind; [apply pd_load|intros p];
      eapply pd_bind; [by apply pd_foreach_loop|intros _]; apply IH|lia].
  Qed.
  Lemma pd_tree_foreach fuel : 3 ≤ w → ∀ root, paid 0 (tree_foreach_node fuel root (tape_push t)).
  Proof.
    intros Hw. induction fuel as [|fuel IH]; intros i; cbn [tree_foreach_node].
    - case_match; [apply pd_ret|apply pd_fuel].
    - pd.
  Qed.
  Lemma pd_hl_pos tb pos : paid 0 (hashlin_pos tb pos).
  Proof.
    unfold hashlin_pos, ilog2. eapply pd_le; [eapply (pd_bind _ _ 0); [|intros i]|].
    - case_match; (apply pd_ret || apply pd_ub).
    - eapply (pd_bind _ _ 0 0); [|intros s; apply pd_ret]. unfold hl_get. repeat case_match; (apply pd_ret || apply pd_ub).
    - lia.
  Qed.
End visits.

Lemma paid_visit n k t c : paid k t n c → visit_cost n k t c.
Proof.
  intros H m ws m' Hm E. destruct (H m ws Hm) as (l & H1 & H2). rewrite E in H1, H2.
  destruct (H2 _ _ eq_refl) as (ws' & H3 & H4). exists l, ws'. repeat split; [done|done|lia].
Qed.
Lemma list_visit fuel l t : visit_cost 1 2 t (list_foreach fuel l (tape_push t)).
Proof. by apply paid_visit, pd_list_foreach. Qed.
Lemma hashtable_visit fuel tb t : 0 ≤ ht_bucket_max tb → visit_cost (ht_bucket_max tb) 2 t (hashtable_foreach fuel tb (tape_push t)).
Proof.
  intros Hb. apply paid_visit. unfold hashtable_foreach. eapply pd_le; [apply pd_buckets; [done|intros pos; apply pd_ret]|lia].
Qed.
Lemma hashdyn_visit fuel tb t : 0 ≤ hd_bucket_max tb → visit_cost (hd_bucket_max tb) 2 t (hashdyn_foreach fuel tb (tape_push t)).
Proof.
  intros Hb. apply paid_visit. unfold hashdyn_foreach. eapply pd_le; [apply pd_buckets; [done|intros pos; apply pd_ret]|lia].
Qed.
Lemma hashlin_visit fuel tb t : 0 ≤ hl_low_max tb + hl_split tb < 2 ^ 64 →
  visit_cost (hl_low_max tb + hl_split tb) 2 t (hashlin_foreach fuel tb (tape_push t)).
Proof.
  intros Hb. apply paid_visit. unfold hashlin_foreach. cbn zeta.
  assert (Hwr : wrap (hl_low_max tb + hl_split tb) = hl_low_max tb + hl_split tb) by (unfold wrap; apply Z.mod_small; lia).
  rewrite Hwr. eapply pd_le; [apply pd_buckets; [done|intros pos; apply pd_hl_pos]|lia].
Qed.
Lemma tree_visit fuel tr t : visit_cost 0 3 t (tree_foreach fuel tr (tape_push t)).
Proof. by apply paid_visit, pd_tree_foreach. Qed.

Lemma sort_accesses m K l t xs f g :
  list_rep m l xs → m !! t = Some (Tape []) →
  separate K (t :: l :: (xs.*1 ≫= node_cells 4)) m →
  (∀ log a b, a ∈ xs.*2 → b ∈ xs.*2 → reads K (f log) (g log) a b) →
  let N := Z.of_nat (length xs) in
  ∃ log, logged (list_sort (length xs) l (tape_cmp t f)) m log (list_sort (length xs) l (tape_cmp t f) m) ∧
    Z.of_nat (length log) ≤ 8 * N * Z.log2_up N + 9 * N + 6.
Proof.
  intros Hl Ht Hsep Hr N. destruct (pd_sort t f (length xs) l m [] Ht) as (log & H1 & H2). exists log. split; [done|].
  pose proof (sort_count m K l t xs f g (length xs) Hl Ht (le_n _) Hsep Hr) as Hs. simpl in Hs.
  destruct (list_sort _ _ _ m) as [v m'| | |]; try done. destruct (H2 _ _ eq_refl) as (ws & Hws & Hle).
  destruct Hs as (calls & Hcalls & Hb). rewrite Hws in Hcalls. injection Hcalls as <-. simpl in Hle. fold N in Hb, Hle. lia.
Qed.
