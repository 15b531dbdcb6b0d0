(** * Lists, hashtables and arrays access their own memory only. *)
From Verif Require Export Accesses.
Global Open Scope Z_scope.

(** ** Lists *)
Lemma local_head F FL l : local F FL (list_head l).
Proof. apply local_load. Qed.
Global Hint Resolve local_head : loc.
Section lists.
  Variables (F : mem) (FL : gmap Z region).
  Notation local := (local F FL).
  Lemma local_insert_first l p : local (list_insert_first l p).
  Proof. rewrite /list_insert_first. local_all. Qed.
  Lemma local_insert_head_ne l p : local (list_insert_head_not_empty l p).
  Proof. rewrite /list_insert_head_not_empty. local_all. Qed.
  Lemma local_insert_tail_ne l p : local (list_insert_tail_not_empty l p).
  Proof. rewrite /list_insert_tail_not_empty. local_all. Qed.
  Lemma local_insert_head l p d : local (list_insert_head l p d).
  Proof. pose proof local_insert_first. pose proof local_insert_head_ne. rewrite /list_insert_head /list_head. local_all. Qed.
  Lemma local_insert_tail l p d : local (list_insert_tail l p d).
  Proof. pose proof local_insert_first. pose proof local_insert_tail_ne. rewrite /list_insert_tail /list_head. local_all. Qed.
  Lemma local_tail l : local (list_tail l).
  Proof. rewrite /list_tail /list_head. local_all. Qed.
  Lemma local_empty l : local (list_empty l).
  Proof. rewrite /list_empty /list_head. local_all. Qed.
  Lemma local_remove_existing l p : local (list_remove_existing l p).
  Proof. rewrite /list_remove_existing /list_head. local_all. Qed.
  Lemma local_concat l p : local (list_concat l p).
  Proof. rewrite /list_concat /list_head. local_all. Qed.
  Lemma local_count_loop fuel n i : local (list_count_loop fuel n i).
  Proof. revert n i. induction fuel; intros; simpl; local_all. Qed.
  Lemma local_foreach_loop fuel node func : (∀ d, local (func d)) → local (list_foreach_loop fuel node func).
  Proof. intros Hf. revert node. induction fuel; intros; simpl; local_all. Qed.
  Lemma local_walk fuel i : local (list_walk fuel i).
  Proof. revert i. induction fuel; intros; simpl; local_all. Qed.
  Lemma local_memset a n : local (memset0 a n).
  Proof. revert a. induction n; intros; simpl; local_all. Qed.
  Lemma local_bucket_search fuel cmp arg hash i : (∀ x y, local (cmp x y)) → local (bucket_search fuel cmp arg hash i).
  Proof. intros Hf. revert i. induction fuel; intros; simpl; local_all. Qed.
  Lemma local_bucket_remove {R} fuel cmp arg hash i (found : Z → M R) notfound :
    (∀ x y, local (cmp x y)) → (∀ p, local (found p)) → local notfound →
    local (bucket_remove fuel cmp arg hash i found notfound).
  Proof. intros Hf H1 H2. revert i. induction fuel; intros; simpl; local_all. Qed.
  Lemma local_buckets_foreach fuel n pos ref func : (∀ p, local (ref p)) → (∀ d, local (func d)) →
    local (buckets_foreach fuel n pos ref func).
  Proof. intros Hr Hf. revert pos. induction n; intros; simpl; local_all. by apply local_foreach_loop. Qed.

  Lemma local_splice a b c d : local (chain_splice a b c d).
  Proof. rewrite /chain_splice. local_all. Qed.
  Lemma local_chain_concat a b : local (chain_concat a b).
  Proof. rewrite /chain_concat. local_all. Qed.
  Lemma local_bit_get b i : local (bit_get b i).
  Proof. rewrite /bit_get. local_all. Qed.
  Lemma local_bit_set b i c : local (bit_set b i c).
  Proof. rewrite /bit_set. local_all. Qed.
  Lemma local_ctz x : local (ctz x).
  Proof. rewrite /ctz. local_all. Qed.
  Lemma local_ilog2 x : local (ilog2 x).
  Proof. rewrite /ilog2. local_all. Qed.
  Section sort.
    Variable cmp : Z → Z → M Z.
    Hypothesis Hcmp : ∀ x y, local (cmp x y).
    Lemma local_merge_loop fuel a b c d e : local (chain_merge_loop fuel cmp a b c d e).
    Proof using Hcmp.
      pose proof local_splice. pose proof local_chain_concat.
      revert a b c. induction fuel; intros; simpl; local_all.
    Qed.
    Lemma local_merge_deg fuel a b : local (chain_merge_degenerated fuel a b cmp).
    Proof using Hcmp.
      pose proof local_merge_loop. pose proof local_chain_concat.
      rewrite /chain_merge_degenerated /chain_merge. local_all.
    Qed.
    Lemma local_carry fuel lfuel i mask last bit : local (chain_carry_loop fuel cmp lfuel i mask last bit).
    Proof using Hcmp.
      pose proof local_merge_deg. pose proof local_bit_get. pose proof local_bit_set.
      revert i mask last bit. induction lfuel; intros; simpl; local_all.
    Qed.
    Lemma local_chain_add fuel c p bit : local (chain_add fuel cmp c p bit).
    Proof using Hcmp.
      pose proof local_carry. pose proof local_bit_get. pose proof local_bit_set. rewrite /chain_add. local_all.
    Qed.
    Lemma local_add_loop fuel lfuel c p tl bit : local (chain_add_loop fuel cmp lfuel c p tl bit).
    Proof using Hcmp.
      pose proof local_chain_add. revert c p bit. induction lfuel; intros; cbn [chain_add_loop]; local_all.
    Qed.
    Lemma local_final fuel lfuel i mask bit : local (chain_final_loop fuel cmp lfuel i mask bit).
    Proof using Hcmp.
      pose proof local_merge_deg. pose proof local_bit_get. pose proof local_bit_set.
      revert i mask bit. induction lfuel; intros; cbn [chain_final_loop]; local_all.
    Qed.
    Lemma local_sort fuel l : local (list_sort fuel l cmp).
    Proof using Hcmp.
      pose proof local_add_loop. pose proof local_final. pose proof local_bit_get. pose proof local_ctz.
      pose proof local_empty. rewrite /list_sort /chain_mergesort /list_set /list_head. local_all.
    Qed.
  End sort.
  Lemma local_visit t d : local (visit t d).
  Proof. rewrite /visit. local_all. Qed.
  Lemma local_visit_arg t a d : local (visit_arg t a d).
  Proof. rewrite /visit_arg. local_all. Qed.
  Lemma local_visit_free t d : local (visit_free t d).
  Proof. rewrite /visit_free. local_all. Qed.
End lists.
Global Hint Resolve local_insert_first local_insert_head_ne local_insert_tail_ne local_insert_head local_insert_tail local_tail local_empty
  local_remove_existing local_concat local_count_loop local_foreach_loop local_walk local_memset
  local_bucket_search local_bucket_remove local_buckets_foreach local_ctz local_ilog2 local_sort
  local_visit local_visit_arg local_visit_free : loc.

Lemma local_lstep F FL fuel t cs o : llooks o → local F FL (lstep fuel t cs o).
Proof.
  intros Ho. rewrite /lstep. apply local_bind; [|intros; local_all].
  destruct o; rewrite /list_init /list_count /list_foreach /list_foreach_arg /list_head; local_all.
  apply local_sort. intros. by apply local_cmp.
Qed.

(** ** Hashtables *)
Section tables.
  Variables (F : mem) (FL : gmap Z region).
  Notation local := (local F FL).
  Lemma local_ht_init n : local (hashtable_init n).
  Proof. rewrite /hashtable_init. local_all. Qed.
  Lemma local_ht_insert t p d h : local (hashtable_insert t p d h).
  Proof. rewrite /hashtable_insert. local_all. Qed.
  Lemma local_ht_remove fuel t cmp arg h : (∀ x y, local (cmp x y)) → local (hashtable_remove fuel t cmp arg h).
  Proof. intros. rewrite /hashtable_remove. local_all; apply local_bucket_remove; intros; local_all. Qed.
  Lemma local_ht_remove_existing t p : local (hashtable_remove_existing t p).
  Proof. rewrite /hashtable_remove_existing. local_all. Qed.
  Lemma local_ht_search fuel t cmp arg h : (∀ x y, local (cmp x y)) → local (hashtable_search fuel t cmp arg h).
  Proof. intros. rewrite /hashtable_search /hashtable_bucket. local_all. Qed.
  Lemma local_ht_foreach fuel t func : (∀ d, local (func d)) → local (hashtable_foreach fuel t func).
  Proof. intros. rewrite /hashtable_foreach. local_all; apply local_buckets_foreach; intros; local_all. Qed.
  Lemma local_ht_foreach_arg fuel t func arg : (∀ a d, local (func a d)) → local (hashtable_foreach_arg fuel t func arg).
  Proof. intros. rewrite /hashtable_foreach_arg. local_all; apply local_buckets_foreach; intros; local_all. Qed.

  Lemma local_hd_init : local hashdyn_init.
  Proof. rewrite /hashdyn_init. local_all. Qed.
  Lemma local_hd_reinsert fuel b mask j : local (hashdyn_reinsert fuel b mask j).
  Proof. revert j. induction fuel; intros; simpl; local_all. Qed.
  Lemma local_hd_grow_loop fuel n a b c d i : local (hashdyn_grow_loop fuel n a b c d i).
  Proof. pose proof local_hd_reinsert. revert i. induction n; intros; simpl; local_all. Qed.
  Lemma local_hd_shrink_loop n a b c i : local (hashdyn_shrink_loop n a b c i).
  Proof. revert i. induction n; intros; simpl; local_all. Qed.
  Lemma local_hd_resize fuel t bit : local (hashdyn_resize fuel t bit).
  Proof. pose proof local_hd_grow_loop. pose proof local_hd_shrink_loop. rewrite /hashdyn_resize. local_all. Qed.
  Lemma local_hd_grow fuel t : local (hashdyn_grow_step fuel t).
  Proof. pose proof local_hd_resize. rewrite /hashdyn_grow_step. local_all. Qed.
  Lemma local_hd_shrink fuel t : local (hashdyn_shrink_step fuel t).
  Proof. pose proof local_hd_resize. rewrite /hashdyn_shrink_step. local_all. Qed.
  Lemma local_hd_insert fuel t p d h : local (hashdyn_insert fuel t p d h).
  Proof. pose proof local_hd_grow. rewrite /hashdyn_insert. local_all. Qed.
  Lemma local_hd_remove fuel t cmp arg h : (∀ x y, local (cmp x y)) → local (hashdyn_remove fuel t cmp arg h).
  Proof.
    intros. pose proof local_hd_shrink. rewrite /hashdyn_remove. local_all; apply local_bucket_remove; intros; local_all.
  Qed.
  Lemma local_hd_remove_existing fuel t p : local (hashdyn_remove_existing fuel t p).
  Proof. pose proof local_hd_shrink. rewrite /hashdyn_remove_existing. local_all. Qed.
  Lemma local_hd_search fuel t cmp arg h : (∀ x y, local (cmp x y)) → local (hashdyn_search fuel t cmp arg h).
  Proof. intros. rewrite /hashdyn_search /hashdyn_bucket. local_all. Qed.
  Lemma local_hd_foreach fuel t func : (∀ d, local (func d)) → local (hashdyn_foreach fuel t func).
  Proof. intros. rewrite /hashdyn_foreach. local_all; apply local_buckets_foreach; intros; local_all. Qed.
  Lemma local_hd_foreach_arg fuel t func arg : (∀ a d, local (func a d)) → local (hashdyn_foreach_arg fuel t func arg).
  Proof. intros. rewrite /hashdyn_foreach_arg. local_all; apply local_buckets_foreach; intros; local_all. Qed.

  Lemma local_hl_get t i : local (hl_get t i).
  Proof. rewrite /hl_get. local_all. Qed.
  Lemma local_hl_set t i p : local (hl_set t i p).
  Proof. rewrite /hl_set. local_all. Qed.
  Lemma local_hl_set_bit t b : local (hl_set_bit t b).
  Proof. rewrite /hl_set_bit. local_all. Qed.
  Lemma local_hl_init : local hashlin_init.
  Proof.
    pose proof local_hl_set. pose proof local_hl_set_bit. rewrite /hashlin_init. local_all.
  Qed.
  Lemma local_hl_done_loop n t i : local (hashlin_done_loop n t i).
  Proof. pose proof local_hl_get. revert i. induction n; intros; simpl; local_all. Qed.
  Lemma local_hl_done t : local (hashlin_done t).
  Proof. pose proof local_hl_done_loop. pose proof local_hl_get. rewrite /hashlin_done. local_all. Qed.
  Lemma local_hl_pos t i : local (hashlin_pos t i).
  Proof. pose proof local_hl_get. rewrite /hashlin_pos. local_all. Qed.
  Lemma local_hl_ref t h : local (hashlin_bucket_ref t h).
  Proof. pose proof local_hl_pos. rewrite /hashlin_bucket_ref. local_all. Qed.
  Lemma local_hl_flush fuel a b mask j : local (hashlin_flush fuel a b mask j).
  Proof. revert j. induction fuel; intros; simpl; local_all. Qed.
  Lemma local_hl_grow_loop fuel lfuel t x : local (hashlin_grow_loop fuel lfuel t x).
  Proof.
    pose proof local_hl_pos. pose proof local_hl_flush. pose proof local_hl_set. pose proof local_hl_set_bit.
    revert t. induction lfuel; intros; simpl; local_all.
  Qed.
  Lemma local_hl_grow fuel t : local (hashlin_grow_step fuel t).
  Proof.
    pose proof local_hl_grow_loop. pose proof local_hl_set. pose proof local_hl_set_bit.
    rewrite /hashlin_grow_step. local_all.
  Qed.
  Lemma local_hl_shrink_loop lfuel t x : local (hashlin_shrink_loop lfuel t x).
  Proof.
    pose proof local_hl_pos. pose proof local_hl_get. pose proof local_hl_set_bit.
    revert t. induction lfuel; intros; simpl; local_all.
  Qed.
  Lemma local_hl_shrink t : local (hashlin_shrink_step t).
  Proof.
    pose proof local_hl_shrink_loop. pose proof local_hl_get. pose proof local_hl_set_bit.
    rewrite /hashlin_shrink_step. local_all.
  Qed.
  Lemma local_hl_insert fuel t p d h : local (hashlin_insert fuel t p d h).
  Proof. pose proof local_hl_grow. pose proof local_hl_ref. rewrite /hashlin_insert. local_all. Qed.
  Lemma local_hl_remove fuel t cmp arg h : (∀ x y, local (cmp x y)) → local (hashlin_remove fuel t cmp arg h).
  Proof.
    intros. pose proof local_hl_shrink. pose proof local_hl_ref. rewrite /hashlin_remove.
    local_all; apply local_bucket_remove; intros; local_all.
  Qed.
  Lemma local_hl_remove_existing t p : local (hashlin_remove_existing t p).
  Proof. pose proof local_hl_shrink. pose proof local_hl_ref. rewrite /hashlin_remove_existing. local_all. Qed.
  Lemma local_hl_search fuel t cmp arg h : (∀ x y, local (cmp x y)) → local (hashlin_search fuel t cmp arg h).
  Proof. intros. pose proof local_hl_ref. rewrite /hashlin_search /hashlin_bucket. local_all. Qed.
  Lemma local_hl_bucket t h : local (hashlin_bucket t h).
  Proof. intros. pose proof local_hl_ref. rewrite /hashlin_bucket. local_all. Qed.
  Lemma local_hl_foreach fuel t func : (∀ d, local (func d)) → local (hashlin_foreach fuel t func).
  Proof. intros. pose proof local_hl_pos. rewrite /hashlin_foreach. local_all; apply local_buckets_foreach; intros; local_all. Qed.
  Lemma local_hl_foreach_arg fuel t func arg : (∀ a d, local (func a d)) → local (hashlin_foreach_arg fuel t func arg).
  Proof. intros. pose proof local_hl_pos. rewrite /hashlin_foreach_arg. local_all; apply local_buckets_foreach; intros; local_all. Qed.
End tables.
Global Hint Resolve local_ht_init local_ht_insert local_ht_remove local_ht_remove_existing local_ht_search local_ht_foreach local_ht_foreach_arg
  local_hd_init local_hd_insert local_hd_remove local_hd_remove_existing local_hd_search local_hd_foreach local_hd_foreach_arg
  local_hl_init local_hl_insert local_hl_remove local_hl_remove_existing local_hl_search local_hl_foreach local_hl_foreach_arg
  local_hl_bucket local_hl_done : loc.
Global Hint Resolve local_cmp : loc.

Lemma local_tape_looks F FL t f a b : only_looks f → local F FL (tape_cmp t (λ _, f) a b).
Proof. intros. by apply local_cmp. Qed.
Lemma local_hashtable_step F FL fuel t cs o : tlooks o → local F FL (tstep hashtable_table fuel t cs o).
Proof.
  intros Ho. assert (Hcmp := local_tape_looks F FL t). destruct o, cs; simpl in *; rewrite /hashtable_bucket /hashtable_done; local_all.
Qed.
Lemma local_hashdyn_step F FL fuel t cs o : tlooks o → local F FL (tstep hashdyn_table fuel t cs o).
Proof.
  intros Ho. assert (Hcmp := local_tape_looks F FL t). destruct o, cs; simpl in *; rewrite /hashdyn_bucket /hashdyn_done; local_all.
Qed.
Lemma local_hashlin_step F FL fuel t cs o : tlooks o → local F FL (tstep hashlin_table fuel t cs o).
Proof.
  intros Ho. assert (Hcmp := local_tape_looks F FL t). destruct o, cs; simpl in *; local_all.
Qed.

(** ** Arrays *)
Section arrays.
  Variables (F : mem) (FL : gmap Z region).
  Notation local := (local F FL).
  Lemma local_seg_get b i : local (seg_get b i).
  Proof. rewrite /seg_get. local_all. Qed.
  Lemma local_seg_set b i p : local (seg_set b i p).
  Proof. rewrite /seg_set. local_all. Qed.
  Lemma local_size_shift b : local (size_shift b).
  Proof. rewrite /size_shift. local_all. Qed.
  Lemma local_ptrdiff_shift b : local (ptrdiff_shift b).
  Proof. rewrite /ptrdiff_shift. local_all. Qed.
  Lemma local_to_ptrdiff b : local (to_ptrdiff b).
  Proof. rewrite /to_ptrdiff. local_all. Qed.
End arrays.
Global Hint Resolve local_seg_get local_seg_set local_size_shift local_ptrdiff_shift local_to_ptrdiff : loc.
Section arrays.
  Variables (F : mem) (FL : gmap Z region).
  Notation local := (local F FL).
  Lemma local_array_init : local array_init.
  Proof. rewrite /array_init. local_all. Qed.
  Lemma local_array_done_loop n t i : local (array_done_loop n t i).
  Proof. revert i. induction n; intros; simpl; local_all. Qed.
  Lemma local_array_done t : local (array_done t).
  Proof. pose proof local_array_done_loop. rewrite /array_done. local_all. Qed.
  Lemma local_array_grow_loop fuel t n : local (array_grow_loop fuel t n).
  Proof. revert t. induction fuel; intros; simpl; local_all. Qed.
  Lemma local_array_grow t n : local (array_grow t n).
  Proof. pose proof local_array_grow_loop. rewrite /array_grow. local_all. Qed.
  Lemma local_array_ref t i : local (array_ref t i).
  Proof. rewrite /array_ref. local_all. Qed.
  Lemma local_array_set t i v : local (array_set t i v).
  Proof. pose proof local_array_ref. rewrite /array_set. local_all. Qed.
  Lemma local_array_get t i : local (array_get t i).
  Proof. pose proof local_array_ref. rewrite /array_get. local_all. Qed.
  Lemma local_array_insert t v : local (array_insert t v).
  Proof. pose proof local_array_grow. pose proof local_array_set. rewrite /array_insert. local_all. Qed.
  Lemma local_arrayof_init k : local (arrayof_init k).
  Proof. rewrite /arrayof_init. local_all. Qed.
  Lemma local_arrayof_done_loop n t i : local (arrayof_done_loop n t i).
  Proof. revert i. induction n; intros; simpl; local_all. Qed.
  Lemma local_arrayof_done t : local (arrayof_done t).
  Proof. pose proof local_arrayof_done_loop. rewrite /arrayof_done. local_all. Qed.
  Lemma local_arrayof_grow_loop fuel t n : local (arrayof_grow_loop fuel t n).
  Proof. revert t. induction fuel; intros; simpl; local_all. Qed.
  Lemma local_arrayof_grow t n : local (arrayof_grow t n).
  Proof. pose proof local_arrayof_grow_loop. rewrite /arrayof_grow. local_all. Qed.
  Lemma local_arrayof_ref t i : local (arrayof_ref t i).
  Proof. rewrite /arrayof_ref. local_all. Qed.
End arrays.
Global Hint Resolve local_array_init local_array_done local_array_grow local_array_ref local_array_set local_array_get local_array_insert
  local_arrayof_init local_arrayof_done local_arrayof_grow local_arrayof_ref : loc.
Section arrays.
  Variables (F : mem) (FL : gmap Z region).
  Notation local := (local F FL).
  Lemma local_blocks_free n b i : local (blocks_free n b i).
  Proof. revert i. induction n; intros; simpl; local_all. Qed.
  Lemma local_blk_alloc n b i : local (arrayblk_alloc n b i).
  Proof. revert i. induction n; intros; simpl; local_all. Qed.
  Lemma local_blkof_alloc k n t i : local (arrayblkof_alloc k n t i).
  Proof. revert i. induction n; intros; simpl; local_all. Qed.
  Lemma local_blk_grow t n : local (arrayblk_grow t n).
  Proof. pose proof local_blk_alloc. rewrite /arrayblk_grow. local_all. Qed.
  Lemma local_blkof_grow t n : local (arrayblkof_grow t n).
  Proof. pose proof local_blkof_alloc. rewrite /arrayblkof_grow. local_all. Qed.
  Lemma local_blk_ref t i : local (arrayblk_ref t i).
  Proof. rewrite /arrayblk_ref. local_all. Qed.
  Lemma local_blk_set t i v : local (arrayblk_set t i v).
  Proof. pose proof local_blk_ref. rewrite /arrayblk_set. local_all. Qed.
  Lemma local_blk_get t i : local (arrayblk_get t i).
  Proof. pose proof local_blk_ref. rewrite /arrayblk_get. local_all. Qed.
  Lemma local_blk_insert t v : local (arrayblk_insert t v).
  Proof. pose proof local_blk_grow. pose proof local_blk_set. rewrite /arrayblk_insert. local_all. Qed.
  Lemma local_blkof_ref t i : local (arrayblkof_ref t i).
  Proof. rewrite /arrayblkof_ref. local_all. Qed.

  Lemma local_array_step cs o : local (astep array_a cs o).
  Proof. destruct o, cs; simpl; local_all. Qed.
  Lemma local_arrayof_step cs o : local (astep arrayof_a cs o).
  Proof. destruct o, cs; simpl; local_all. Qed.
  Lemma local_arrayblk_step cs o : local (astep arrayblk_a cs o).
  Proof.
    pose proof local_blk_grow. pose proof local_blk_ref. pose proof local_blk_set. pose proof local_blk_get.
    pose proof local_blk_insert. pose proof local_blocks_free.
    destruct o, cs; simpl; rewrite /arrayblk_init /arrayblk_done; local_all.
  Qed.
  Lemma local_arrayblkof_step cs o : local (astep arrayblkof_a cs o).
  Proof.
    pose proof local_blkof_grow. pose proof local_blkof_ref. pose proof local_blocks_free.
    destruct o, cs; simpl; rewrite /arrayblkof_init /arrayblkof_done; local_all.
  Qed.
End arrays.
