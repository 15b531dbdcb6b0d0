(** * The number of accesses of the functions. *)
From Verif Require Export CostSpec.
From Verif Require Import Tree InpTrie HashTbl HashDyn HashLin.
Global Open Scope Z_scope.

(** The same, and a fact about the value returned. *)
Definition costs_ret (n : nat) {A} (c : M A) (φ : A → Prop) : Prop :=
  ∀ m, ∃ l, logged c m l (c m) ∧ (length l ≤ n)%nat ∧ ∀ v m', c m = Ok v m' → φ v.
Lemma cr_le {A} n n' (c : M A) (φ ψ : A → Prop) : costs_ret n' c φ → (n' ≤ n)%nat → (∀ v, φ v → ψ v) → costs_ret n c ψ.
Proof. intros H Hn Hφ m. destruct (H m) as (l & H1 & H2 & H3). exists l. repeat split; [done|lia|eauto]. Qed.
Lemma am_cr {A} n (c : M A) : at_most n c → costs_ret n c (λ _, True).
Proof. intros H m. destruct (H m) as (l & H1 & H2). by exists l. Qed.
Lemma cr_am {A} n (c : M A) φ : costs_ret n c φ → at_most n c.
Proof. intros H m. destruct (H m) as (l & H1 & H2 & _). by exists l. Qed.
Lemma cr_bind {A B} n1 n2 (c : M A) (k : A → M B) φ ψ :
  costs_ret n1 c φ → (∀ v, φ v → costs_ret n2 (k v) ψ) → costs_ret (n1 + n2) (c ≫= k) ψ.
Proof.
  intros Hc Hk m. destruct (Hc m) as (l & H1 & H2 & H3). unfold mbind, M_bind.
  destruct (c m) as [v m'| |e|] eqn:E.
  - destruct (Hk v (H3 _ _ eq_refl) m') as (l' & H1' & H2' & H3'). exists (l ++ l'). rewrite app_length.
    split; [by eapply lg_bind|]. split; [lia|done].
  - exists l. split; [by apply lg_bind_ub|]. split; [lia|done].
  - exists l. split; [by apply lg_bind_env|]. split; [lia|done].
  - exists l. split; [by apply lg_bind_fuel|]. split; [lia|done].
Qed.
Lemma am_bind {A B} n1 n2 (c : M A) (k : A → M B) : at_most n1 c → (∀ v, at_most n2 (k v)) → at_most (n1 + n2) (c ≫= k).
Proof. intros H1 H2. eapply cr_am, cr_bind; [by apply am_cr|]. intros v _. by apply am_cr. Qed.
Lemma am_le {A} n n' (c : M A) : at_most n' c → (n' ≤ n)%nat → at_most n c.
Proof. intros H Hn m. destruct (H m) as (l & H1 & H2). exists l. split; [done|lia]. Qed.
Lemma am_if {A} n1 n2 (P : Prop) `{Decision P} (c1 c2 : M A) :
  at_most n1 c1 → at_most n2 c2 → at_most (n1 `max` n2) (if decide P then c1 else c2).
Proof. intros H1 H2. destruct (decide P); (eapply am_le; [done|lia]). Qed.
Lemma cr_if {A} n1 n2 (P : Prop) `{Decision P} (c1 c2 : M A) φ :
  costs_ret n1 c1 φ → costs_ret n2 c2 φ → costs_ret (n1 `max` n2) (if decide P then c1 else c2) φ.
Proof. intros H1 H2. destruct (decide P); (eapply cr_le; [done|lia|done]). Qed.
Ltac am_prim := intros m; eexists; split; [constructor|simpl; lia].
Lemma am_ret {A} (v : A) : at_most 0 (mret v). Proof. am_prim. Qed.
Lemma am_ub {A} : at_most 0 (@ub A). Proof. am_prim. Qed.
Lemma am_fuel {A} : at_most 0 (@fuel_out A). Proof. am_prim. Qed.
Lemma am_assert b : at_most 0 (massert b). Proof. am_prim. Qed.
Lemma am_load a : at_most 1 (load a). Proof. am_prim. Qed.
Lemma am_store a v : at_most 1 (store a v). Proof. am_prim. Qed.
Lemma am_free a : at_most 0 (free a). Proof. am_prim. Qed.
Lemma cr_ret {A} (v : A) (φ : A → Prop) : φ v → costs_ret 0 (mret v) φ.
Proof. intros Hv m. exists []. split; [constructor|]. split; [done|]. by intros ? ? [= <- _]. Qed.
Lemma cr_fuel {A} (φ : A → Prop) : costs_ret 0 (@fuel_out A) φ.
Proof. intros m. exists []. split; [constructor|]. by split. Qed.
Create HintDb am discriminated.
Global Hint Constants Opaque : am.
Global Hint Resolve am_ret am_ub am_fuel am_assert am_load am_store am_free : am.
Ltac am1 := first [solve [eauto with am nocore]|eapply am_bind; [|intros ?]|eapply am_if].
Ltac am_all := repeat am1.
Ltac am := eapply am_le; [am_all|try lia].

(** ** Lists *)
Lemma am_head l : at_most 1 (list_head l). Proof. unfold list_head. am. Qed.
Global Hint Resolve am_head : am.
Lemma am_tail l : at_most 2 (list_tail l). Proof. unfold list_tail. am. Qed.
Lemma am_first l p : at_most 3 (list_insert_first l p). Proof. unfold list_insert_first. am. Qed.
Lemma am_head_ne l p : at_most 6 (list_insert_head_not_empty l p). Proof. unfold list_insert_head_not_empty. am. Qed.
Lemma am_tail_ne h p : at_most 6 (list_insert_tail_not_empty h p). Proof. unfold list_insert_tail_not_empty. am. Qed.
Global Hint Resolve am_first am_head_ne am_tail_ne : am.
Lemma am_insert_head l p d : at_most 8 (list_insert_head l p d). Proof. unfold list_insert_head. am. Qed.
Lemma am_insert_tail l p d : at_most 8 (list_insert_tail l p d). Proof. unfold list_insert_tail. am. Qed.
Lemma am_remove l p : at_most 8 (list_remove_existing l p). Proof. unfold list_remove_existing. am. Qed.
Lemma am_concat a b : at_most 7 (list_concat a b). Proof. unfold list_concat. am. Qed.
Lemma am_empty l : at_most 1 (list_empty l). Proof. unfold list_empty. am. Qed.
Global Hint Resolve am_insert_head am_insert_tail am_remove am_concat : am.
Lemma am_count_loop n : ∀ c i, at_most n (list_count_loop n c i).
Proof. induction n as [|n IH]; intros c i; simpl; am. Qed.
Lemma am_count n l : at_most (1 + n) (list_count n l).
Proof. unfold list_count. eapply am_bind; [apply am_head|intros ?; apply am_count_loop]. Qed.
Lemma am_foreach_loop n f : (∀ d, at_most 0 (f d)) → ∀ i, at_most (2 * n) (list_foreach_loop n i f).
Proof. intros Hf. induction n as [|n IH]; intros i; simpl; am. Qed.
Lemma am_foreach n l f : (∀ d, at_most 0 (f d)) → at_most (1 + 2 * n) (list_foreach n l f).
Proof. intros Hf. unfold list_foreach. eapply am_bind; [apply am_head|intros ?; by apply am_foreach_loop]. Qed.

(** ** Hashtables *)
Lemma am_bucket_search n cmp a h : (∀ d, at_most 0 (cmp a d)) → ∀ i, at_most (3 * n) (bucket_search n cmp a h i).
Proof. intros Hf. induction n as [|n IH]; intros i; simpl; am. Qed.
Lemma am_bucket_remove {R} n cmp a h k (found : Z → M R) nf : (∀ d, at_most 0 (cmp a d)) → (∀ p, at_most k (found p)) → at_most 0 nf →
  ∀ i, at_most (3 * n + k) (bucket_remove n cmp a h i found nf).
Proof. intros Hf Hk Hnf. induction n as [|n IH]; intros i; simpl; am. Qed.
Lemma am_ht_insert t p d h : at_most 9 (hashtable_insert t p d h). Proof. unfold hashtable_insert. am. Qed.
Lemma am_ht_remove_existing t p : at_most 10 (hashtable_remove_existing t p). Proof. unfold hashtable_remove_existing. am. Qed.
Lemma am_ht_bucket t h : at_most 1 (hashtable_bucket t h). Proof. unfold hashtable_bucket. am. Qed.
Lemma am_hd_bucket t h : at_most 1 (hashdyn_bucket t h). Proof. unfold hashdyn_bucket. am. Qed.
Lemma am_ilog2 x : at_most 0 (ilog2 x).
Proof. unfold ilog2. am. Qed.
Lemma am_hl_get t i : at_most 0 (hl_get t i).
Proof. unfold hl_get. repeat case_match; (apply am_ret || apply am_ub). Qed.
Global Hint Resolve am_ilog2 am_hl_get am_ht_bucket am_hd_bucket : am.
Lemma am_hl_pos t i : at_most 0 (hashlin_pos t i). Proof. unfold hashlin_pos. am. Qed.
Global Hint Resolve am_hl_pos : am.
Lemma am_hl_ref t h : at_most 0 (hashlin_bucket_ref t h). Proof. unfold hashlin_bucket_ref. am. Qed.
Global Hint Resolve am_hl_ref : am.
Lemma am_hl_bucket t h : at_most 1 (hashlin_bucket t h). Proof. unfold hashlin_bucket. am. Qed.
Global Hint Resolve am_hl_bucket : am.
Lemma am_ht_search n t cmp a h : (∀ d, at_most 0 (cmp a d)) → at_most (1 + 3 * n) (hashtable_search n t cmp a h).
Proof. intros H. unfold hashtable_search. eapply am_bind; [apply am_ht_bucket|intros ?; by apply am_bucket_search]. Qed.
Lemma am_hd_search n t cmp a h : (∀ d, at_most 0 (cmp a d)) → at_most (1 + 3 * n) (hashdyn_search n t cmp a h).
Proof. intros H. unfold hashdyn_search. eapply am_bind; [apply am_hd_bucket|intros ?; by apply am_bucket_search]. Qed.
Lemma am_hl_search n t cmp a h : (∀ d, at_most 0 (cmp a d)) → at_most (1 + 3 * n) (hashlin_search n t cmp a h).
Proof. intros H. unfold hashlin_search. eapply am_bind; [apply am_hl_bucket|intros ?; by apply am_bucket_search]. Qed.
Lemma am_ht_remove n t cmp a h : (∀ d, at_most 0 (cmp a d)) → at_most (10 + 3 * n) (hashtable_remove n t cmp a h).
Proof.
  intros H. unfold hashtable_remove. eapply am_le; [eapply am_bind; [apply am_load|intros ?]; apply (am_bucket_remove n cmp a h 9 _ _ H)|].
  - intros p. am.
  - am.
  - lia.
Qed.

(** ** Arrays *)
Lemma am_seg_get b i : at_most 0 (seg_get b i).
Proof. unfold seg_get. repeat case_match; (apply am_ret || apply am_ub). Qed.
Global Hint Resolve am_seg_get : am.
Lemma am_array_ref t i : at_most 0 (array_ref t i). Proof. unfold array_ref. am. Qed.
Global Hint Resolve am_array_ref : am.
Lemma am_array_get t i : at_most 1 (array_get t i). Proof. unfold array_get. am. Qed.
Lemma am_array_set t i v : at_most 1 (array_set t i v). Proof. unfold array_set. am. Qed.
Global Hint Resolve am_array_get am_array_set : am.
Lemma am_arrayof_ref t i : at_most 0 (arrayof_ref t i). Proof. unfold arrayof_ref. am. Qed.
Lemma am_arrayblk_ref t i : at_most 1 (arrayblk_ref t i). Proof. unfold arrayblk_ref. am. Qed.
Global Hint Resolve am_arrayblk_ref : am.
Lemma am_arrayblk_get t i : at_most 2 (arrayblk_get t i). Proof. unfold arrayblk_get. am. Qed.
Lemma am_arrayblk_set t i v : at_most 2 (arrayblk_set t i v). Proof. unfold arrayblk_set. am. Qed.
Lemma am_arrayblkof_ref t i : at_most 1 (arrayblkof_ref t i). Proof. unfold arrayblkof_ref. am. Qed.

(** ** Allocator *)
Lemma am_malloc n : at_most 0 (malloc n).
Proof. unfold malloc. am_prim. Qed.
Global Hint Resolve am_malloc : am.
Lemma am_carve bs : 0 < bs → ∀ fuel data size fb, bs ≤ size < 2 ^ 64 →
  at_most (Z.to_nat (size / bs)) (allocator_carve fuel bs data size fb).
Proof.
  intros Hb. induction fuel as [|fuel IH]; intros data size fb Hs; cbn [allocator_carve]; [eapply am_le; [apply am_fuel|lia]|].
  assert (Hq : size / bs = (size - bs) / bs + 1).
  { rewrite -(Z.div_add (size - bs) 1 bs); [lia|]. by rewrite Z.mul_1_l Z.sub_add. }
  assert (0 ≤ (size - bs) / bs) by (apply Z.div_pos; lia).
  replace (Z.to_nat (size / bs)) with (1 + Z.to_nat ((size - bs) / bs))%nat by lia.
  eapply am_bind; [apply am_store|intros _]. assert (Hsub : sub64 size bs = size - bs) by (unfold sub64, wrap; apply Z.mod_small; lia). rewrite Hsub.
  destruct (decide (size - bs >= bs)).
  - apply IH. lia.
  - eapply am_le; [apply am_ret|lia].
Qed.
Definition fresh_al (bs al : Z) (a : allocator) : Prop := al_block_size a = bs ∧ al_align_size a = al.
Definition seg_blocks (bs al : Z) : nat := Z.to_nat (Z.max ALLOCATOR_BLOCK_SIZE (8 + al + bs) / bs).
Lemma cr_alloc bs al a : fresh_al bs al a → 0 < bs → 0 < al → 8 + al + bs < 2 ^ 64 →
  costs_ret (2 + seg_blocks bs al) (allocator_alloc a) (λ r, fresh_al bs al r.2).
Proof.
  intros [Ha1 Ha2] Hb Hal Hw. unfold allocator_alloc.
  eapply (cr_le _ _ _ (λ r, fresh_al bs al r.2)); [eapply (cr_bind (1 + seg_blocks bs al) 1 _ _ (fresh_al bs al))| |].
  - eapply (cr_le _ _ _ (fresh_al bs al)); [eapply (cr_if (1 + seg_blocks bs al) 0)| |].
    + unfold allocator_refill. cbn zeta. rewrite Ha1 Ha2.
      assert (H1 : add64 (add64 8 al) bs = 8 + al + bs).
      { unfold add64, wrap. rewrite (Z.mod_small (8 + al)); [lia|]. rewrite Z.mod_small; lia. }
      rewrite H1.
      set (size := if decide (ALLOCATOR_BLOCK_SIZE < 8 + al + bs) then 8 + al + bs else ALLOCATOR_BLOCK_SIZE).
      assert (Hsz : size = Z.max ALLOCATOR_BLOCK_SIZE (8 + al + bs)) by (subst size; case_decide; lia).
      assert (HA : ALLOCATOR_BLOCK_SIZE = 4032) by done.
      eapply (cr_le _ _ _ (fresh_al bs al)); [eapply (cr_bind 0 _ _ _ (λ _, True)); [apply am_cr, am_malloc|]; intros data _;
        eapply (cr_bind 1 _ _ _ (λ _, True)); [apply am_cr, am_store|]; intros _ _;
        eapply (cr_bind (seg_blocks bs al) 0 _ _ (λ _, True))| |].
      * apply am_cr. set (mis := ptr_add data 8 mod al).
        assert (Hmis : 0 ≤ mis < al) by (subst mis; apply Z.mod_pos_bound; lia).
        assert (Hpad : sub64 al mis = al - mis) by (unfold sub64, wrap; apply Z.mod_small; lia).
        rewrite Hpad.
        assert (Hsz' : bs ≤ (if decide (mis ≠ 0) then sub64 size (al - mis) else size) ≤ size).
        { case_decide; [|lia]. unfold sub64, wrap. rewrite Z.mod_small; lia. }
        eapply am_le; [apply am_carve; [lia|]; lia|]. unfold seg_blocks. rewrite -Hsz.
        apply Z2Nat.inj_le; [apply Z.div_pos; lia|apply Z.div_pos; lia|]. apply Z.div_le_mono; lia.
      * intros fb _. apply cr_ret. by split.
      * lia.
      * done.
    + apply cr_ret. by split.
    + lia.
    + done.
  - intros a' [Ha'1 Ha'2]. eapply (cr_le _ _ _ (λ r, fresh_al bs al r.2)); [eapply (cr_bind 1 0 _ _ (λ _, True)); [apply am_cr, am_load|]| |].
    + intros next _. apply cr_ret. by split.
    + lia.
    + done.
  - lia.
  - done.
Qed.
Lemma am_alloc_list a : al_free_block a ≠ null → at_most 1 (allocator_alloc a).
Proof. intros H. unfold allocator_alloc. rewrite decide_False //. am. Qed.
Lemma cr_free bs al a p : fresh_al bs al a → costs_ret 1 (allocator_free a p) (fresh_al bs al).
Proof.
  intros [H1 H2]. unfold allocator_free. eapply (cr_le _ _ _ (fresh_al bs al)); [eapply (cr_bind 1 0 _ _ (λ _, True)); [apply am_cr, am_store|]| |].
  - intros _ _. apply cr_ret. by split.
  - lia.
  - done.
Qed.
Lemma am_free_block a p : at_most 1 (allocator_free a p).
Proof. eapply cr_am. by apply (cr_free (al_block_size a) (al_align_size a)). Qed.
Global Hint Resolve am_free_block : am.

(** ** Trie *)
Lemma am_clear n : ∀ a, at_most n (clear_loop a n).
Proof. induction n as [|n IH]; intros a; simpl; am. Qed.
Global Hint Resolve am_clear : am.
Lemma am_shr k s : at_most 0 (shr_key k s). Proof. unfold shr_key. am. Qed.
Global Hint Resolve am_shr : am.
Lemma am_digit k s : at_most 0 (trie_digit k s). Proof. unfold trie_digit. am. Qed.
Lemma am_let t k : at_most 0 (trie_let_ptr t k). Proof. unfold trie_let_ptr. am. Qed.
Global Hint Resolve am_digit am_let : am.
Lemma am_trie_loop n : ∀ s p k, at_most (1 + n) (trie_bucket_loop n s p k).
Proof. induction n as [|n IH]; intros s p k; simpl; am. Qed.
Global Hint Resolve am_trie_loop : am.
Lemma am_trie_bucket n t k : at_most (2 + n) (trie_bucket n t k). Proof. unfold trie_bucket. am. Qed.
Global Hint Resolve am_trie_bucket : am.
Lemma am_trie_search n t k : at_most (3 + n) (trie_search n t k). Proof. unfold trie_search. am. Qed.
Definition trie_al (a : allocator) : Prop := fresh_al TRIE_BLOCK_SIZE TRIE_BLOCK_SIZE a.
Lemma cr_alloc_trie a : trie_al a → costs_ret 65 (allocator_alloc a) (λ r, trie_al r.2).
Proof. intros H. by apply (cr_alloc TRIE_BLOCK_SIZE TRIE_BLOCK_SIZE a). Qed.
Lemma am_expand n : ∀ a nc s l p i k, trie_al a → at_most (79 + 75 * n) (trie_expand n a nc s l p i k).
Proof.
  induction n as [|n IH]; intros a nc s l p i k Ha; cbn [trie_expand];
    (eapply am_le; [eapply cr_am, cr_bind; [by apply cr_alloc_trie|]; intros r Hr; apply am_cr; am_all|]).
  all: simpl in *; try (change (Z.to_nat TRIE_TREE_MAX) with 8%nat; lia).
Qed.
Global Hint Resolve am_expand : am.
Lemma am_trie_bi n : ∀ a nc s l i k, trie_al a → at_most (81 + 75 * n) (trie_bucket_insert n a nc s l i k).
Proof.
  induction n as [|n IH]; intros a nc s l i k Ha; cbn [trie_bucket_insert]; (eapply am_le; [am_all|]).
  all: lia.
Qed.
Global Hint Resolve am_trie_bi : am.
Lemma am_trie_insert n t a p d k : trie_al a → at_most (83 + 75 * n) (trie_insert n t a p d k).
Proof. intros Ha. unfold trie_insert. eapply am_le; [am_all|lia]. Qed.
Lemma am_scan n : ∀ t i c l, at_most n (trie_scan n t i c l).
Proof. induction n as [|n IH]; intros t i c l; simpl; am. Qed.
Global Hint Resolve am_scan : am.
Lemma am_reduce ps : ∀ a nc, at_most (12 * length ps) (trie_reduce ps a nc).
Proof.
  induction ps as [|p ps IH]; intros a nc; cbn [trie_reduce]; [apply am_ret|].
  eapply am_le; [eapply am_bind; [apply am_load|intros q]; eapply (am_bind 8); [apply (am_scan 8)|intros r]|].
  - instantiate (1 := (3 + 12 * length ps)%nat). destruct r as [[c l]|]; [|eapply am_le; [apply am_ret|lia]]. am.
  - simpl. lia.
Qed.
Global Hint Resolve am_reduce : am.
Lemma am_trie_br n : ∀ a nc s l r k ps, at_most (11 + 13 * n + 12 * length ps) (trie_bucket_remove_existing n a nc s l r k ps).
Proof.
  induction n as [|n IH]; intros a nc s l r k ps; cbn [trie_bucket_remove_existing]; (eapply am_le; [am_all|]).
  - lia.
  - simpl. lia.
Qed.
Global Hint Resolve am_trie_br : am.
Lemma am_trie_remove n t a k : at_most (12 + 13 * n) (trie_remove n t a k).
Proof. unfold trie_remove. eapply am_le; [am_all|simpl; lia]. Qed.
Lemma am_trie_remove_existing n t a p : at_most (13 + 13 * n) (trie_remove_existing n t a p).
Proof. unfold trie_remove_existing. eapply am_le; [am_all|simpl; lia]. Qed.

(** ** Inplace trie *)
Lemma am_inp_let t k : at_most 0 (inp_let_ptr t k). Proof. unfold inp_let_ptr. am. Qed.
Lemma am_inp_digit k s : at_most 0 (inp_digit k s). Proof. unfold inp_digit. am. Qed.
Global Hint Resolve am_inp_let am_inp_digit : am.
Lemma am_inp_find n : ∀ s l k, at_most (2 + 2 * n) (inp_find n s l k).
Proof. induction n as [|n IH]; intros s l k; cbn [inp_find]; am. Qed.
Lemma am_inp_loop n : ∀ s p k, at_most (2 + 2 * n) (inp_bucket_loop n s p k).
Proof. induction n as [|n IH]; intros s l k; cbn [inp_bucket_loop]; am. Qed.
Global Hint Resolve am_inp_find am_inp_loop : am.
Lemma am_inp_bucket n t k : at_most (3 + 2 * n) (inp_bucket_of n t k). Proof. unfold inp_bucket_of. am. Qed.
Global Hint Resolve am_inp_bucket : am.
Lemma am_inp_search n t k : at_most (4 + 2 * n) (inp_search n t k). Proof. unfold inp_search. am. Qed.
Lemma am_inp_first p : at_most 2 (inp_list_insert_first p). Proof. unfold inp_list_insert_first. am. Qed.
Lemma am_inp_tail h p : at_most 6 (inp_list_insert_tail_not_empty h p). Proof. unfold inp_list_insert_tail_not_empty. am. Qed.
Lemma am_inp_lremove l p : at_most 7 (inp_list_remove l p). Proof. unfold inp_list_remove. am. Qed.
Global Hint Resolve am_inp_first am_inp_tail am_inp_lremove : am.
Lemma am_inp_bi n s l i k : at_most (8 + 2 * n) (inp_bucket_insert n s l i k).
Proof.
  unfold inp_bucket_insert. eapply am_le; [eapply (am_bind _ 6); [apply am_inp_find|intros [l' p]]|lia]. am.
Qed.
Global Hint Resolve am_inp_bi : am.
Lemma am_inp_insert n t p d k : at_most (14 + 2 * n) (inp_insert n t p d k).
Proof. unfold inp_insert. change (Z.to_nat INP_TREE_MAX) with 4%nat. am. Qed.
Lemma am_copy n : ∀ a b i, at_most (2 * n) (inp_copy_loop n a b i).
Proof. induction n as [|n IH]; intros a b i; cbn [inp_copy_loop]; am. Qed.
Lemma am_inp_scan n : ∀ p, at_most n (inp_scan n p).
Proof. induction n as [|n IH]; intros p; cbn [inp_scan]; am. Qed.
Global Hint Resolve am_copy am_inp_scan : am.
Lemma am_leaf n : ∀ l p, at_most (5 + 5 * n) (inp_leaf n l p).
Proof.
  induction n as [|n IH]; intros l p; cbn [inp_leaf]; change (Z.to_nat INP_TREE_MAX) with 4%nat.
  - eapply am_le; [eapply (am_bind 4 1); [apply am_inp_scan|intros [i|]]|lia]; am.
  - eapply am_le; [eapply (am_bind 4 (6 + 5 * n)); [apply am_inp_scan|intros [i|]]|lia]; am.
Qed.
Lemma am_inp_br n s l r k : at_most (25 + 7 * n) (inp_bucket_remove n s l r k).
Proof.
  unfold inp_bucket_remove. change (Z.to_nat INP_TREE_MAX) with 4%nat.
  eapply am_le; [eapply (am_bind _ (23 + 5 * n)); [apply am_inp_find|intros [l' p]]|lia]. cbn zeta.
  eapply am_le; [eapply am_if; [apply am_ret|]; eapply am_bind; [apply am_inp_lremove|intros _]; eapply am_bind; [apply am_load|intros h];
    eapply am_if; [apply am_ret|]; eapply am_if; [am_all|]; eapply (am_bind _ 10); [apply am_leaf|intros [ll lf]]|lia]. am.
Qed.
Global Hint Resolve am_inp_br : am.
Lemma am_inp_remove n t k : at_most (26 + 7 * n) (inp_remove n t k). Proof. unfold inp_remove. am. Qed.
Lemma am_inp_remove_existing n t p : at_most (27 + 7 * n) (inp_remove_existing n t p). Proof. unfold inp_remove_existing. am. Qed.

(** ** Tree *)
Lemma am_tree_search_node n cmp d : (∀ x, at_most 0 (cmp d x)) → ∀ r, at_most (2 * n) (tree_search_node n cmp r d).
Proof. intros H. induction n as [|n IH]; intros r; cbn [tree_search_node]; am. Qed.
Lemma am_tree_search n t d : (∀ x, at_most 0 (tr_cmp t d x)) → at_most (1 + 2 * n) (tree_search n t d).
Proof.
  intros H. unfold tree_search. eapply am_le; [eapply (am_bind _ 1); [by apply am_tree_search_node|intros p]|lia]. am.
Qed.

Lemma am_alloc a : 0 < al_block_size a → 0 < al_align_size a → 8 + al_align_size a + al_block_size a < 2 ^ 64 →
  at_most (2 + Z.to_nat (Z.max ALLOCATOR_BLOCK_SIZE (8 + al_align_size a + al_block_size a) / al_block_size a)) (allocator_alloc a).
Proof. intros H1 H2 H3. eapply cr_am. by apply (cr_alloc (al_block_size a) (al_align_size a)). Qed.
Lemma am_trie_insert10 t a p d k : al_block_size a = 64 → al_align_size a = 64 → at_most 833 (trie_insert 10 t a p d k).
Proof. intros H1 H2. apply (am_trie_insert 10). by split. Qed.
Lemma am_tape_cmp t f a d : at_most 0 (tape_cmp t f a d).
Proof. am_prim. Qed.
