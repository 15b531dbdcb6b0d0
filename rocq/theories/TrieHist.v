(** * Proof of the trie history theorem *)
From Verif Require Export TrieCount TrieKeys ClientSize TreeHist ListHist.
Global Open Scope Z_scope.

(** ** The map of the elements *)
Definition kmap_of (es : list tent) : kmapT := foldl (λ ks e, ins (te_k e) (toel e) ks) ∅ es.

Lemma kmap_of_snoc es e : kmap_of (es ++ [e]) = ins (te_k e) (toel e) (kmap_of es).
Proof. by rewrite /kmap_of foldl_app. Qed.
Lemma kmap_of_lookup es k : kmap_of es !! k = match with_key k es with [] => None | l => Some (toel <$> l) end.
Proof.
  induction es as [|e es IH] using rev_ind; [done|].
  rewrite kmap_of_snoc /ins with_key_app with_key_cons. destruct (decide (te_k e = k)) as [->|Hne].
  - rewrite lookup_insert IH. destruct (with_key k es) as [|e' l]; [done|]. csimpl. by rewrite fmap_app.
  - rewrite lookup_insert_ne // IH. by rewrite app_nil_r.
Qed.
Lemma kmap_of_default es k : default [] (kmap_of es !! k) = toel <$> with_key k es.
Proof. rewrite kmap_of_lookup. by destruct (with_key k es). Qed.
Lemma kmap_of_dom es : dom (kmap_of es) = keys es.
Proof.
  induction es as [|e es IH] using rev_ind; [apply dom_empty_L|]. rewrite kmap_of_snoc /ins dom_insert_L IH.
  apply leibniz_equiv. intros k. rewrite elem_of_union elem_of_singleton !elem_of_keys. set_solver.
Qed.
Lemma kmap_of_remove es1 e es2 :
  kmap_of (es1 ++ es2) = upd (te_k e) (toel <$> with_key (te_k e) (es1 ++ es2)) (kmap_of (es1 ++ e :: es2)).
Proof.
  apply map_eq. intros k. rewrite upd_lookup !kmap_of_lookup. destruct (decide (k = te_k e)) as [->|Hne].
  - destruct (with_key (te_k e) (es1 ++ es2)) as [|e0 l]; [done|]. simpl. done.
  - rewrite !with_key_app with_key_cons decide_False //.
Qed.
Lemma kmap_of_here es1 e es2 :
  kmap_of (es1 ++ e :: es2) !! te_k e = Some ((toel <$> with_key (te_k e) es1) ++ toel e :: (toel <$> with_key (te_k e) es2)).
Proof.
  rewrite kmap_of_lookup with_key_app with_key_cons decide_True //. rewrite -fmap_cons -fmap_app. by destruct (with_key (te_k e) es1).
Qed.

Section hist.
  Context `{!memG}.

  (** ** Taking the trie apart *)
  Definition mnodes (ks : kmapT) : iProp := [∗ map] k ↦ l ∈ ks, [∗ list] x ∈ l, freenode (e_p x).

  Lemma mnodes_split dg N ks : (∀ k, is_Some (ks !! k) → 0 ≤ dg k < Z.of_nat N) →
    ([∗ list] j ∈ seq 0 N, mnodes (sub dg (Z.of_nat j) ks)) -∗ mnodes ks.
  Proof.
    intros HN. rewrite {2}(_ : ks = filter (λ kv, 0 ≤ dg kv.1 < Z.of_nat N) ks); last first.
    { symmetry. apply map_filter_id. intros k l Hk. simpl. apply HN. by eexists. }
    clear HN. induction N as [|N IH].
    - iIntros "_". rewrite (_ : filter _ ks = ∅); [by rewrite /mnodes big_sepM_empty|].
      apply map_filter_empty_iff. intros k l _. simpl. lia.
    - rewrite seq_S big_sepL_app /=. iIntros "(H & Hj & _)". iDestruct (IH with "H") as "H".
      assert (Hd : filter (λ kv, 0 ≤ dg kv.1 < Z.of_nat N) ks ##ₘ sub dg (Z.of_nat N) ks).
      { apply map_disjoint_spec. intros k l l' [_ Hl]%map_filter_lookup_Some [_ Hl']%map_filter_lookup_Some. simpl in *. lia. }
      rewrite (_ : filter (λ kv, 0 ≤ dg kv.1 < Z.of_nat (S N)) ks =
        filter (λ kv, 0 ≤ dg kv.1 < Z.of_nat N) ks ∪ sub dg (Z.of_nat N) ks).
      + rewrite /mnodes big_sepM_union //. iFrame.
      + apply map_eq. intros k. apply option_eq. intros l. rewrite lookup_union_Some // /sub !map_filter_lookup_Some /=.
        destruct (decide (dg k = Z.of_nat N)); split; intros Hx; [right|destruct Hx|left|destruct Hx]; split; try tauto; try lia.
  Qed.

  Variables bs al : Z.
  Hypothesis Hbs : 64 ≤ bs.

  Lemma leafR_nodes h k l : leafR h k l -∗ [∗ list] x ∈ l, freenode (e_p x).
  Proof.
    iIntros "[(_ & %HF & _) H]". generalize (last_p 0 l). intros pv. iInduction l as [|x l] "IH" forall (pv HF); [done|].
    rewrite dseg_cons. iDestruct "H" as "[Hx H]". inversion HF as [|? ? [Hi _] HF']; subst. simpl. iSplitL "Hx".
    - iApply (nodeP_freenode with "Hx"). rewrite Hi. right; eauto.
    - by iApply ("IH" with "[%] H").
  Qed.

  Lemma kids_open N dg n b ks bl : (∀ k, is_Some (ks !! k) → 0 ≤ dg k < Z.of_nat N) →
    (∀ h ks bl, trieR bs n h ks bl -∗ mnodes ks ∗ [∗ list] b ∈ bl, blockR bs b) →
    kids N dg (trieR bs n) b ks bl -∗ ([∗ list] a ∈ wcells b N, anyword a) ∗ mnodes ks ∗ [∗ list] b ∈ bl, blockR bs b.
  Proof.
    iIntros (HN HT) "(%hf & %bf & %Hbl & H)". rewrite Hbl.
    iAssert ([∗ list] j ∈ seq 0 N, anyword (b + 8 * Z.of_nat j) ∗ mnodes (sub dg (Z.of_nat j) ks) ∗ [∗ list] b ∈ bf j, blockR bs b)%I with "[H]" as "H".
    { iApply (big_sepL_impl with "H"). iIntros "!>" (i j _) "[Hw H]". iDestruct (HT with "H") as "[$ $]". iExists _. by iFrame. }
    rewrite !big_sepL_sep. iDestruct "H" as "(Hw & Hm & Hb)". iSplitL "Hw"; [by rewrite /wcells big_sepL_fmap|].
    iSplitL "Hm"; [by iApply mnodes_split|]. by rewrite big_sepL_bind.
  Qed.
  Lemma trieR_open n h ks bl : trieR bs n h ks bl -∗ mnodes ks ∗ [∗ list] b ∈ bl, blockR bs b.
  Proof.
    revert h ks bl. induction n as [|n IH]; intros h ks bl; rewrite trieR_cases; iIntros "[H|[H|H]]".
    1,4: iDestruct "H" as %(-> & -> & ->); rewrite /mnodes big_sepM_empty; by iSplit.
    1,3: iDestruct "H" as (k l [-> ->]) "H"; rewrite /mnodes big_sepM_singleton; iSplit; [by iApply leafR_nodes|done].
    - iDestruct "H" as (n' [=]) "_".
    - iDestruct "H" as (n' [= <-] b bl1 (-> & Hi & Hbl & Hsz)) "[Hr Hk]".
      iDestruct (kids_open with "Hk") as "(Hw & $ & Hb)"; [intros; apply dig_range|done|]. rewrite Hbl. iFrame "Hb".
      iApply blockR_words; [done|]. iFrame.
  Qed.
  Lemma buckets_range es fr om : es_ok om fr es → ∀ k, is_Some (kmap_of es !! k) → 0 ≤ bdig k < Z.of_nat 32.
  Proof.
    intros (_ & _ & Hk & _) k Hs. apply elem_of_dom in Hs. rewrite kmap_of_dom elem_of_keys in Hs. destruct Hs as (e & He & <-).
    rewrite Forall_forall in Hk. specialize (Hk _ He). rewrite /bdig shr_div; [|lia]. split; [apply Z.div_pos; lia|]. apply Z.div_lt_upper_bound; lia.
  Qed.
  Lemma mnodes_ins k x ks : mnodes (ins k x ks) ⊣⊢ mnodes ks ∗ freenode (e_p x).
  Proof.
    rewrite /mnodes /ins. destruct (ks !! k) as [l|] eqn:Hk; simpl.
    - rewrite big_sepM_insert_delete (big_sepM_delete _ ks k) // big_sepL_app big_sepL_singleton. iSplit; iIntros "[[$ $] $]".
    - rewrite big_sepM_insert // big_sepL_singleton. iSplit; iIntros "[$ $]".
  Qed.
  Lemma mnodes_of es : mnodes (kmap_of es) ⊣⊢ [∗ list] e ∈ es, freenode (te_p e).
  Proof.
    induction es as [|e es IH] using rev_ind; [by rewrite /mnodes big_sepM_empty|].
    rewrite kmap_of_snoc mnodes_ins IH big_sepL_app /= right_id. done.
  Qed.
End hist.

Lemma cells_nodup `{!memG} (L : list Z) : ([∗ list] a ∈ L, ∃ c, a ↦ c) -∗ ⌜NoDup L⌝.
Proof.
  iIntros "H". iInduction L as [|a L] "IH"; [iPureIntro; constructor|]. iDestruct "H" as "[(%c & Ha) H]".
  iAssert ⌜a ∉ L⌝%I as %Hn.
  { iIntros ([i Hi]%elem_of_list_lookup). iDestruct (big_sepL_lookup with "H") as (c') "H"; first done. iApply (mapsto_excl with "Ha H"). }
  iDestruct ("IH" with "H") as %Hnd. iPureIntro. by constructor.
Qed.

Lemma length_bind_const {A B} (f : A → list B) n l : (∀ x, length (f x) = n) → length (l ≫= f) = (n * length l)%nat.
Proof. intros Hf. induction l as [|x l IH]; csimpl; [lia|]. rewrite app_length IH Hf. lia. Qed.

Section xstep.
  Context `{!memG}.
  Hypothesis Henv : memG_env.
  Variables (om : objmap) (tb : Z).
  Hypothesis Hom : ∃ others m, client_ok 4 om others m.

  Definition bucketsR (bs : Z) (es : list tent) (ibl : list Z) : iProp := kids 32 bdig (trieR bs 10) tb (kmap_of es) ibl.

  Lemma om_node p : p ∈ dom om → 0 < p ∧ p mod 8 = 0 ∧ p + 32 ≤ 2 ^ 64.
  Proof.
    intros [o Ho]%elem_of_dom. destruct Hom as (oth & m & (Hn & _)). destruct (Hn _ _ Ho) as (H1 & H2 & H3 & _). lia.
  Qed.
  Lemma om_small : Z.of_nat (size om) < 2 ^ 59.
  Proof. destruct Hom as (others & m & Hok). pose proof (client_size_words _ _ _ _ Hok). lia. Qed.

  Lemma usage_bound bs fr es ibl : 64 ≤ bs → es_ok om fr es → Forall inner_ok ibl →
    bucketsR bs es ibl -∗ ⌜32 * Z.of_nat (length es) + 64 * Z.of_nat (length ibl) < 2 ^ 64⌝.
  Proof.
    iIntros (Hbs Hes Hin) "H". iDestruct (kids_open bs with "H") as "(_ & Hm & Hb)"; [by eapply buckets_range|by intros; apply trieR_open|].
    rewrite mnodes_of. pose (L := (es ≫= λ e, wcells (te_p e) 4) ++ (ibl ≫= λ b, wcells b 8)).
    iAssert ([∗ list] a ∈ L, ∃ c, a ↦ c)%I with "[Hm Hb]" as "HL".
    { rewrite /L big_sepL_app !big_sepL_bind. iSplitL "Hm".
      - iApply (big_sepL_impl with "Hm"). iIntros "!>" (i e _) "H". rewrite -fnode4 /fnode. iDestruct "H" as "[_ H]".
        iApply (big_sepL_impl with "H"). iIntros "!>" (? a _) "(%c & _ & H)". by iExists c.
      - iApply (big_sepL_impl with "Hb"). iIntros "!>" (i b _) "H". rewrite blockR_words //. iDestruct "H" as "[H _]".
        iApply (big_sepL_impl with "H"). iIntros "!>" (? a _) "(%c & _ & H)". by iExists c. }
    iDestruct (cells_nodup with "HL") as %Hnd. iPureIntro.
    assert (Hlen : length L = (4 * length es + 8 * length ibl)%nat).
    { rewrite /L app_length (length_bind_const _ 4) // (length_bind_const _ 8) //. }
    enough (Z.of_nat (length L) < 2 ^ 61) by lia. apply aligned_length; [done|]. rewrite /L. apply Forall_app.
    destruct Hes as (_ & _ & _ & Hdom & _). rewrite !Forall_forall in Hdom Hin |- *. split.
    - intros a (e & Ha & He)%elem_of_list_bind. apply elem_of_list_fmap in Ha as (j & -> & Hj%elem_of_seq).
      pose proof (om_node _ (Hdom e He)). split; [lia|]. split; [|lia]. Z.div_mod_to_equations. lia.
    - intros a (b & Ha & Hb)%elem_of_list_bind. apply elem_of_list_fmap in Ha as (j & -> & Hj%elem_of_seq).
      destruct (Hin b Hb) as (H1 & H2 & H3). split; [lia|]. split; [|lia]. Z.div_mod_to_equations. lia.
  Qed.

  Section alloc.
    Variables bs al : Z.
    Hypothesis G : geo bs al.
    Hypothesis Hbs : 64 ≤ bs.
    Variable cl : gmap Z region.
    Notation allocH := (allocH bs al cl).

    Lemma allocH_size a (ibl : list Z) bl : NoDup ibl → list_to_set ibl ## bl → allocH a (list_to_set ibl ∪ bl) -∗
      ⌜al_count a = (Z.of_nat (length ibl) + Z.of_nat (size bl))%Z ∧ bs * (Z.of_nat (length ibl) + Z.of_nat (size bl)) < 2 ^ 64 ∧
       al_block_size a = bs ∧ Z.of_nat (length ibl) < 2 ^ 58 ∧ Forall inner_ok ibl⌝.
    Proof.
      iIntros (Hnd Hd) "Ha". iAssert ⌜Forall inner_ok ibl⌝%I as %Hin.
      { rewrite Forall_forall. iIntros (b Hb). iApply (allocH_inner with "Ha"); [done|done|]. apply elem_of_union_l. by apply elem_of_list_to_set. }
      iDestruct "Ha" as (freed own) "(_ & Ha & _)". iDestruct (allocR_facts bs al G with "Ha") as %(H1 & _ & H2 & H3 & _).
      rewrite size_union // size_list_to_set // in H2 H3. iPureIntro. split_and!; try done; nia.
    Qed.

    Lemma wp_let_ptr t k Φ : 0 ≤ k < 2 ^ 32 → Φ (tri_bucket t + 8 * shr k 27) -∗ wp (trie_let_ptr t k) Φ.
    Proof.
      iIntros (Hk) "H". rewrite /trie_let_ptr /shr_key. wp_bind. iApply wp_if_true; [done|]. wp_ret.
      wp_assert. { apply bool_decide_eq_true. change TRIE_BUCKET_SHIFT with 27. change TRIE_BUCKET_MAX with 32.
        rewrite shr_div; [|lia]. apply Z.div_lt_upper_bound; lia. }
      by wp_ret.
    Qed.
    Lemma bdig_range k : 0 ≤ k < 2 ^ 32 → 0 ≤ bdig k < Z.of_nat 32.
    Proof. intros. rewrite /bdig shr_div; [|lia]. split; [apply Z.div_pos; lia|]. apply Z.div_lt_upper_bound; lia. Qed.

    Lemma wp_insert fuel fr es ibl bl a p d k Φ : (10 ≤ fuel)%nat → NoDup ibl → list_to_set ibl ## bl → es_ok om fr es → p ∈ fr → 0 ≤ k < 2 ^ 32 →
      allocH a (list_to_set ibl ∪ bl) -∗ bucketsR bs es ibl -∗ freenode p -∗
      (∀ a' ibl', ⌜NoDup ibl' ∧ list_to_set ibl' ## bl⌝ -∗ allocH a' (list_to_set ibl' ∪ bl) -∗ bucketsR bs (es ++ [TEnt p d k]) ibl' -∗
        Φ (Trie tb (Z.of_nat (length (es ++ [TEnt p d k]))) (Z.of_nat (length ibl')), a')) -∗
      wp (trie_insert fuel (Trie tb (Z.of_nat (length es)) (Z.of_nat (length ibl))) a p d k) Φ.
    Proof.
      iIntros (Hf Hnd Hdis Hes Hp Hk) "Ha HB Hf HΦ". rewrite /freenode.
      iDestruct "Hf" as "(%Hp0 & Hn & Hv & (%c1 & % & Hd) & (%c2 & % & Hi))".
      iDestruct (allocH_size with "Ha") as %(_ & _ & _ & Hsz & _); [done..|].
      pose proof (es_ok_length _ _ _ Hes) as Hlen. pose proof om_small.
      rewrite /trie_insert. wp_bind. iApply wp_let_ptr; [done|]. wp_store. wp_store. wp_bind. simpl tri_bucket. simpl tri_node_count.
      iDestruct (kids_acc _ _ _ _ _ _ (bdig k) with "HB") as (h bd r0) "(%Hbl & Hw & HT & HB)"; [by apply bdig_range|].
      set (e := TEnt p d k).
      iApply (wp_bucket_insert Henv bs al G Hbs cl 10 fuel a _ _ _ _ _ _ _ (toel e) k with "Ha Hw HT [Hn Hv Hd Hi]"); [done|lia|done| | |lia| |].
      { intros k'. rewrite sub_lookup. destruct (decide (bdig k' = bdig k)); [|by intros []]. intros _. by apply agree_10. }
      { split; [done|]. simpl. apply om_node. destruct Hes as (_ & _ & _ & _ & Hsub). set_solver. }
      { rewrite /freshR /=. by iFrame. }
      iIntros (a' new h' bd' (Hnd' & Hdis' & Hbd')) "Ha Hw HT". wp_ret.
      iDestruct ("HB" $! _ (kmap_of (es ++ [e])) bd' with "[%] Hw [HT]") as "HB".
      { intros k' Hk'. rewrite kmap_of_snoc /ins lookup_insert_ne //. simpl. congruence. }
      { rewrite kmap_of_snoc sub_ins decide_True //. }
      assert (Hpm : bd' ++ r0 ≡ₚ new ++ ibl) by (rewrite Hbl Hbd' assoc //).
      assert (Hndl : NoDup (bd' ++ r0)).
      { rewrite Hpm. apply NoDup_app. split; [done|]. split; [|done]. intros b Hb Hb'. apply (Hdis' b); [by apply elem_of_list_to_set|].
        apply elem_of_union_l. by apply elem_of_list_to_set. }
      assert (Hdl : list_to_set (bd' ++ r0) ## bl). { rewrite Hpm list_to_set_app. set_solver. }
      iDestruct (allocH_eq _ _ _ _ _ (list_to_set (bd' ++ r0) ∪ bl) with "Ha") as "Ha".
      { rewrite Hpm list_to_set_app. set_solver. }
      iDestruct (allocH_size with "Ha") as %(_ & _ & _ & Hsz' & _); [done..|]. cbn [fst snd].
      replace ((Z.of_nat (length ibl) + Z.of_nat (length new)) mod 2 ^ 64) with (Z.of_nat (length (bd' ++ r0))); last first.
      { rewrite Hpm app_length in Hsz' |- *. rewrite Z.mod_small; lia. }
      replace (add64 (tri_count (Trie tb (Z.of_nat (length es)) (Z.of_nat (length ibl)))) 1) with (Z.of_nat (length (es ++ [e]))); last first.
      { rewrite app_length /add64 Z.mod_small /=; lia. }
      iApply ("HΦ" with "[//] Ha HB").
    Qed.

    Lemma wp_remove fuel fr es1 e es2 ibl bl a remove Φ : (10 ≤ fuel)%nat → NoDup ibl → list_to_set ibl ## bl → es_ok om fr (es1 ++ e :: es2) →
      remove = te_p e ∨ remove = 0 ∧ Forall (λ e', te_k e' ≠ te_k e) es1 →
      allocH a (list_to_set ibl ∪ bl) -∗ bucketsR bs (es1 ++ e :: es2) ibl -∗
      (∀ a' ibl' nx pv, ⌜NoDup ibl' ∧ list_to_set ibl' ## bl⌝ -∗ allocH a' (list_to_set ibl' ∪ bl) -∗ bucketsR bs (es1 ++ es2) ibl' -∗
        nodeP (toel e) nx pv -∗ Φ (te_p e, (a', Z.of_nat (length ibl')))) -∗
      wp (trie_bucket_remove_existing fuel a (Z.of_nat (length ibl)) TRIE_BUCKET_SHIFT (tb + 8 * shr (te_k e) 27) remove (te_k e) []) Φ.
    Proof.
      iIntros (Hf Hnd Hdis Hes Hrem) "Ha HB HΦ". iDestruct (allocH_size with "Ha") as %(_ & _ & _ & Hsz & _); [done..|].
      set (k := te_k e). set (es := es1 ++ e :: es2).
      assert (Hk : 0 ≤ k < 2 ^ 32). { destruct Hes as (_ & _ & Hk & _). rewrite Forall_forall in Hk. apply Hk. set_solver. }
      assert (Hep : 0 < te_p e). { destruct Hes as (_ & _ & _ & Hd & _). rewrite Forall_forall in Hd. apply om_node, Hd. set_solver. }
      iDestruct (kids_acc _ _ _ _ _ _ (bdig k) with "HB") as (h bd r0) "(%Hbl & Hw & HT & HB)"; [by apply bdig_range|].
      assert (HNd : NoDup bd). { rewrite Hbl in Hnd. by apply NoDup_app in Hnd as [? _]. }
      assert (Hupd : kmap_of (es1 ++ es2) = upd k ((toel <$> with_key k es1) ++ (toel <$> with_key k es2)) (kmap_of es)).
      { rewrite -fmap_app -with_key_app. apply kmap_of_remove. }
      iAssert (∀ t' h' bl' gone nx pv, ⌜bd ≡ₚ gone ++ bl'⌝ -∗ allocH t' ((list_to_set ibl ∪ bl) ∖ list_to_set gone) -∗
         (tb + 8 * bdig k) ↦ W h' -∗ trieR bs 10 h' (upd k ((toel <$> with_key k es1) ++ (toel <$> with_key k es2)) (sub bdig (bdig k) (kmap_of es))) bl' -∗
         nodeP (toel e) nx pv -∗ Φ (te_p e, (t', (Z.of_nat (length ibl) - Z.of_nat (length gone)) mod 2 ^ 64)))%I with "[HB HΦ]" as "Hfin".
      { iIntros (t' h' bl' gone nx pv Hbd) "Ha Hw HT Hn".
        iDestruct ("HB" $! _ (kmap_of (es1 ++ es2)) bl' with "[%] Hw [HT]") as "HB".
        { intros k' Hk'. rewrite Hupd upd_lookup decide_False //. congruence. }
        { rewrite Hupd sub_upd decide_True //. }
        assert (Hpm : ibl ≡ₚ gone ++ bl' ++ r0) by (rewrite Hbl Hbd assoc //).
        rewrite Hpm in Hnd. apply NoDup_app in Hnd as (HA & HBd & HC).
        rewrite Hpm list_to_set_app in Hdis.
        iDestruct (allocH_eq _ _ _ _ _ (list_to_set (bl' ++ r0) ∪ bl) with "Ha") as "Ha".
        { intros b. rewrite Hpm !list_to_set_app. specialize (HBd b). set_unfold. naive_solver. }
        replace ((Z.of_nat (length ibl) - Z.of_nat (length gone)) mod 2 ^ 64) with (Z.of_nat (length (bl' ++ r0))); last first.
        { rewrite Hpm app_length in Hsz |- *. rewrite Z.mod_small; lia. }
        iApply ("HΦ" with "[%] Ha HB Hn"). split; [done|]. set_solver. }
      iApply (wp_remove_down Henv bs al G Hbs cl 10 fuel a _ _ _ _ _ _ _ remove k []
        (toel <$> with_key k es1) (toel e) (toel <$> with_key k es2) with "Ha Hw HT"); [done|lia|done|done| |lia| | |done|].
      { split; [done|]. rewrite Hbl list_to_set_app. set_solver. }
      { rewrite sub_lookup decide_True //. apply kmap_of_here. }
      { destruct Hrem as [->|[-> HF]]; [by left|right]. split; [done|]. by rewrite (with_key_none _ _ HF). }
      iSplit.
      - iIntros (t' h' bl' gone nx pv [Hg _]) "Ha Hw HT Hn". iApply ("Hfin" with "[//] Ha Hw HT Hn").
      - iIntros (t' h' gone nx pv (Hg & _ & _)) "Ha Hw HT Hn". cbn [trie_reduce]. wp_ret.
        iApply ("Hfin" $! _ _ [] with "[%] Ha Hw HT Hn"). by rewrite app_nil_r.
    Qed.

    Lemma wp_bucket fuel es ibl t k Φ : (10 ≤ fuel)%nat → tri_bucket t = tb → 0 ≤ k < 2 ^ 32 →
      bucketsR bs es ibl -∗ (bucketsR bs es ibl -∗ Φ (hd_p (toel <$> with_key k es) 0)) -∗
      wp (trie_bucket fuel t k) Φ.
    Proof.
      iIntros (Hf Ht Hk) "HB HΦ". rewrite /trie_bucket. wp_bind. iApply wp_let_ptr; [done|]. rewrite Ht.
      iDestruct (kids_acc _ _ _ _ _ _ (bdig k) with "HB") as (h bd r0) "(%Hbl & Hw & HT & HB)"; [by apply bdig_range|].
      wp_load. iApply (wp_bucket_loop with "HT"); [done|lia|done|]. iIntros "HT". rewrite sub_lookup. rewrite decide_True // kmap_of_default.
      iApply "HΦ". iDestruct ("HB" with "[%] Hw HT") as "HB"; [done|]. iDestruct "HB" as (hf bf Hp) "HB". iExists hf, bf. iFrame. iPureIntro.
      by rewrite Hbl.
    Qed.
    Lemma buckets_acc es ibl k : 0 ≤ k < 2 ^ 32 → with_key k es ≠ [] →
      bucketsR bs es ibl -∗ leafR (hd_p (toel <$> with_key k es) 0) k (toel <$> with_key k es) ∗
        (leafR (hd_p (toel <$> with_key k es) 0) k (toel <$> with_key k es) -∗ bucketsR bs es ibl).
    Proof.
      iIntros (Hk Hw) "HB". iDestruct (kids_acc _ _ _ _ _ _ (bdig k) with "HB") as (h bd r0) "(%Hbl & Hw & HT & HB)"; [by apply bdig_range|].
      iDestruct (trieR_acc _ _ _ _ _ k (toel <$> with_key k es) with "HT") as "[$ HT]".
      { rewrite sub_lookup decide_True // kmap_of_lookup. by destruct (with_key k es). }
      iIntros "HL". iSpecialize ("HT" with "HL").
      iDestruct ("HB" with "[%] Hw HT") as "HB"; [done|]. iDestruct "HB" as (hf bf Hp) "HB". iExists hf, bf. iFrame. iPureIntro.
      by rewrite Hbl.
    Qed.
    Lemma wp_remove_none fuel es ibl a k Φ : (10 ≤ fuel)%nat → 0 ≤ k < 2 ^ 32 → with_key k es = [] →
      bucketsR bs es ibl -∗ (bucketsR bs es ibl -∗ Φ (0, (a, Z.of_nat (length ibl)))) -∗
      wp (trie_bucket_remove_existing fuel a (Z.of_nat (length ibl)) TRIE_BUCKET_SHIFT (tb + 8 * shr k 27) 0 k []) Φ.
    Proof.
      iIntros (Hf Hk Hno) "HB HΦ". iDestruct (kids_acc _ _ _ _ _ _ (bdig k) with "HB") as (h bd r0) "(%Hbl & Hw & HT & HB)"; [by apply bdig_range|].
      iApply (wp_remove_absent bs 10 with "Hw HT"); [done|lia|done|done| |].
      { rewrite sub_lookup decide_True // kmap_of_lookup Hno //. }
      iIntros "Hw HT". iApply "HΦ". iDestruct ("HB" with "[%] Hw HT") as "HB"; [done|]. iDestruct "HB" as (hf bf Hp) "HB". iExists hf, bf. iFrame. iPureIntro.
      by rewrite Hbl.
    Qed.
  End alloc.

  Definition XR (cs : option (trie * allocator)) (s : xstate) : iProp :=
    let fr := ks_free (xs_k s) in let es := ks_es (xs_k s) in
    pool 4 om fr ∗ ⌜es_ok om fr es⌝ ∗
    match xs_cfg s with
    | None => ⌜cs = None ∧ es = []⌝ ∗ hctl (xs_live s) ∗ [∗ list] a ∈ wcells tb 32, anyword a
    | Some (bs, bl) => ∃ a al ibl,
        ⌜cs = Some (Trie tb (Z.of_nat (length es)) (Z.of_nat (length ibl)), a) ∧ geo bs al ∧ 64 ≤ bs ∧
         NoDup ibl ∧ list_to_set ibl ## bl⌝ ∗
        allocH bs al (xs_live s) a (list_to_set ibl ∪ bl) ∗ bucketsR bs es ibl ∗
        ([∗ set] p ∈ bl, blockR bs p) ∗ [∗ list] e ∈ es, rest 4 om (te_p e)
    end.

  Lemma leafR_index h k l x : x ∈ l → leafR h k l -∗ f_index (e_p x) ↦ W k ∗ (f_index (e_p x) ↦ W k -∗ leafR h k l).
  Proof.
    iIntros ((l1 & l2 & ->)%elem_of_list_split) "[%HF HL]".
    assert (Hx : e_i x = W k). { destruct HF as (_ & HF & _). rewrite Forall_forall in HF. apply HF. set_solver. }
    rewrite /leafR dseg_app dseg_cons /nodeP. iDestruct "HL" as "(H1 & (Hp & Hn & Hv & Hd & Hi) & H2)". rewrite Hx. iFrame "Hi".
    iIntros "Hi". iFrame. done.
  Qed.
  Lemma leafR_data h k x l : leafR h k (x :: l) -∗ ⌜0 < e_p x⌝ ∗ f_data (e_p x) ↦ W (e_d x) ∗ (f_data (e_p x) ↦ W (e_d x) -∗ leafR h k (x :: l)).
  Proof.
    iIntros "[%HF HL]". rewrite /leafR dseg_cons /nodeP. iDestruct "HL" as "((%Hp & Hn & Hv & Hd & Hi) & H2)". iSplit; [done|]. iFrame "Hd".
    iIntros "Hd". iFrame. done.
  Qed.
  Lemma buckets_count bs fr es ibl : es_ok om fr es → bucketsR bs es ibl -∗ ⌜length ibl = inner_count (keys es)⌝.
  Proof.
    iIntros ((_ & _ & Hk & _)) "HB". rewrite -kmap_of_dom. iApply (buckets_length with "HB"). intros k Hs.
    apply elem_of_dom in Hs. rewrite kmap_of_dom elem_of_keys in Hs. destruct Hs as (e & He & <-). rewrite Forall_forall in Hk. by apply Hk.
  Qed.
  Lemma nodes_give_back es fr : ([∗ list] e ∈ es, freenode (te_p e)) -∗ ([∗ list] e ∈ es, rest 4 om (te_p e)) -∗ pool 4 om fr -∗
    pool 4 om (fr ∪ list_to_set (te_p <$> es)).
  Proof.
    iIntros "Hn Hr Hp". iInduction es as [|x es] "IH" forall (fr); csimpl.
    - by rewrite right_id_L.
    - iDestruct "Hn" as "[Hn Hns]". iDestruct "Hr" as "[Hr Hrs]". rewrite assoc_L. iApply ("IH" with "Hns Hrs").
      rewrite -fnode4. by iApply (pool_give 4 with "Hn Hr"); [lia|].
  Qed.

  Lemma blk_add (p : Z) (X bl : gset Z) : p ∉ X ∪ bl → X ## bl → p ∉ bl ∧ X ## {[p]} ∪ bl ∧ {[p]} ∪ (X ∪ bl) = X ∪ ({[p]} ∪ bl).
  Proof. set_solver. Qed.
  Lemma blk_del (p : Z) (X bl : gset Z) : p ∈ bl → X ## bl → p ∈ X ∪ bl ∧ X ## bl ∖ {[p]} ∧ (X ∪ bl) ∖ {[p]} = X ∪ bl ∖ {[p]}.
  Proof. intros H1 H2. assert (p ∉ X) by set_solver. set_solver. Qed.
  Lemma buckets_empty bs : ([∗ list] a ∈ wcells tb 32, a ↦ W 0) -∗ bucketsR bs [] [].
  Proof. iIntros "Hw". iApply (kids_empty with "Hw"). apply trieR_null. Qed.
  Lemma buckets_open bs fr es ibl : 64 ≤ bs → es_ok om fr es → bucketsR bs es ibl -∗
    ([∗ list] a ∈ wcells tb 32, anyword a) ∗ ([∗ list] e ∈ es, freenode (te_p e)) ∗ [∗ list] b ∈ ibl, blockR bs b.
  Proof.
    iIntros (Hbs Hes) "HB". iDestruct (kids_open bs with "HB") as "H"; [by eapply buckets_range|by intros; apply trieR_open|]. rewrite mnodes_of. iExact "H".
  Qed.
  Local Opaque bucketsR.

  Lemma wp_xstep fuel cs s o Φ : (10 ≤ fuel)%nat → xpre s o →
    XR cs s -∗ (∀ cs' a s', ⌜xpost s o a s'⌝ -∗ XR cs' s' -∗ Φ (cs', a)) -∗ wp (xstep fuel tb cs o) Φ.
  Proof.
    iIntros (Hf Hpre) "(Hpool & %Hes & HR) HΦ". pose proof (es_ok_length _ _ _ Hes) as Hlen. pose proof om_small as Hsm.
    assert ((∃ bs al, o = XInit bs al) ∨ ∀ bs al, o ≠ XInit bs al) as [(bs & al & ->)|Hno] by (destruct o; eauto).
    { destruct Hpre as (Hcfg & Hb & Ha & Hm & Hfit). rewrite Hcfg. iDestruct "HR" as "([-> %He] & Hc & Hw)".
      pose proof (real_size_facts bs al ltac:(lia) Ha Hm) as (H1 & H2 & H3 & H4 & H5 & H6 & H7).
      assert (HG : geo (real_size bs al) (real_align al)) by (constructor; try done; lia).
      rewrite /xstep /trie_init. wp_bind. wp_bind. iApply (wp_clear_loop with "Hw"). iIntros "Hw". wp_ret. wp_ret.
      iApply ("HΦ" with "[//]"). rewrite /XR. iFrame "Hpool". iSplit; [done|]. cbn [xs_cfg xs_k xs_live]. rewrite He.
      iExists _, (real_align al), []. iSplit.
      { iPureIntro. split; [done|]. split; [done|]. split; [lia|]. split; [constructor|set_solver]. }
      rewrite big_sepS_empty big_sepL_nil. iSplitL "Hc".
      { iExists [], ∅. iSplit; [iPureIntro; apply map_disjoint_empty_l|]. rewrite !left_id_L. iFrame. by iApply allocR_init. }
      iSplitL; [|done]. by iApply buckets_empty. }
    assert (Hcfg : ∃ bs bl, xs_cfg s = Some (bs, bl)).
    { destruct o; simpl in Hpre; [by destruct (Hno bs al)|..]; try (destruct Hpre as [[[? ?] ?] ?]; by eauto);
        try (destruct Hpre as [[? ?] ?]; by eauto); destruct Hpre as (? & ? & ? & _); eauto. }
    destruct Hcfg as (bs & bl & Hcfg). rewrite Hcfg.
    iDestruct "HR" as (a al ibl (-> & HG & Hbs & Hnd & Hdis)) "(Ha & HB & Hbl & Hr)".
    iDestruct (buckets_count with "HB") as %Hcnt; [done|].
    iDestruct (allocH_size with "Ha") as %(Hac & Hasz & Habs & Hsz & Hin); [done..|].
    set (es := ks_es (xs_k s)) in *. set (fr := ks_free (xs_k s)) in *.
    destruct o as [bs0 al0|o| | |p j v|p| | ]; simpl in Hpre.
    - by destruct (Hno bs0 al0).
    - destruct Hpre as [_ Hpre]. destruct o as [p d k|k|p|k|k| ]; simpl in Hpre; rewrite /xstep.
      + (* insert *)
        destruct Hpre as [Hp Hk]. iDestruct (pool_take with "Hpool") as "(Hn & Hrp & Hpool)"; first done. rewrite fnode4.
        wp_bind. iApply (wp_insert with "Ha HB Hn"); [done|done|lia|done..|].
        iIntros (a' ibl' [Hnd' Hdis']) "Ha HB". wp_ret.
        iApply ("HΦ" with "[]"). { iPureIntro. eexists. split; [split; reflexivity|reflexivity]. }
        rewrite /XR /= Hcfg. iFrame "Hpool". iSplit; [iPureIntro; by apply es_ok_insert|].
        iExists a', al, ibl'. iSplit; [done|]. rewrite big_sepL_app /=. iFrame.
      + (* remove *)
        wp_bind. rewrite /trie_remove. wp_bind. iApply wp_let_ptr; [done|]. simpl tri_bucket. simpl tri_node_count.
        destruct (with_key k es) as [|e l] eqn:Hw.
        * wp_bind. iApply (wp_remove_none with "HB"); [lia|done|done|]. iIntros "HB". wp_if. wp_ret. wp_ret.
          iApply ("HΦ" $! _ _ s with "[]").
          { iPureIntro. exists (xs_k s). split; [|by destruct s]. right. split; [by apply with_key_nil|done]. }
          rewrite /XR Hcfg. iFrame "Hpool". iSplit; [done|]. iExists a, al, ibl. iSplit; [done|]. iFrame "Ha HB Hbl Hr".
        * destruct (with_key_first _ _ _ _ Hw) as (es1 & es2 & Hes' & Hke & HF & _).
          subst k. wp_bind. rewrite Hes' in Hes Hlen |- *. rewrite app_length /= in Hlen.
          iApply (wp_remove with "Ha HB"); [done|done|lia|done|done|done|by right|].
          iIntros (a' ibl' nx pv [Hnd' Hdis']) "Ha HB Hn".
          iDestruct (nodeP_pos with "Hn") as %Hp0. simpl in Hp0. iApply wp_if_false; [simpl; rewrite /null; lia|]. rewrite /nodeP /=.
          iDestruct "Hn" as "(_ & Hn & Hv & Hd & Hi)". wp_load. wp_ret. wp_ret.
          iApply ("HΦ" with "[]").
          { iPureIntro. eexists. split; [left; exists es1, e, es2; split_and!; [done|done|done|reflexivity|reflexivity]|reflexivity]. }
          rewrite big_sepL_app /=. iDestruct "Hr" as "(Hr1 & Hre & Hr2)".
          iDestruct (pool_give 4 with "[Hn Hv Hd Hi] Hre Hpool") as "Hpool"; [lia| |].
          { rewrite fnode4 /freenode. iSplit; [done|]. iSplitL "Hn"; [|iSplitL "Hv"; [|iSplitL "Hd"]]; iExists _; iFrame; iPureIntro; right; eauto. }
          rewrite /XR /= Hcfg. iFrame "Hpool". iSplit; [iPureIntro; by apply es_ok_remove|]. iExists a', al, ibl'. rewrite big_sepL_app. iFrame.
          iPureIntro. split; [|done]. do 3 f_equal. rewrite !app_length /= /sub64. rewrite Z.mod_small; lia.
      + (* remove_existing *)
        apply elem_of_list_fmap in Hpre as (e & -> & He). apply elem_of_list_split in He as (es1 & es2 & Hes').
        change (ks_es (xs_k s)) with es in Hes'.
        assert (Hk : 0 ≤ te_k e < 2 ^ 32). { destruct Hes as (_ & _ & Hk & _). rewrite Forall_forall in Hk. apply Hk. rewrite Hes'. set_solver. }
        wp_bind. rewrite /trie_remove_existing. rewrite Hes' in Hes Hlen |- *. rewrite app_length /= in Hlen.
        iDestruct (buckets_acc _ _ _ (te_k e) with "HB") as "[HL HB]"; [done| |].
        { rewrite with_key_app with_key_cons decide_True //. by destruct (with_key _ es1). }
        iDestruct (leafR_index _ _ _ (toel e) with "HL") as "[Hi HL]".
        { apply elem_of_list_fmap_1. apply elem_of_list_filter. set_solver. }
        wp_load. iDestruct ("HB" with "[HL Hi]") as "HB"; [by iApply "HL"|]. wp_bind. iApply wp_let_ptr; [done|]. simpl tri_bucket. simpl tri_node_count.
        wp_bind. iApply (wp_remove with "Ha HB"); [done|done|lia|done|done|done|by left|].
        iIntros (a' ibl' nx pv [Hnd' Hdis']) "Ha HB Hn". wp_assert; [by apply bool_decide_eq_true|].
        iDestruct (nodeP_pos with "Hn") as %Hp0. simpl in Hp0. rewrite /nodeP /=.
        iDestruct "Hn" as "(_ & Hn & Hv & Hd & Hi)". wp_load. wp_ret. wp_ret.
        iApply ("HΦ" with "[]").
        { iPureIntro. eexists. split; [|reflexivity]. exists es1, (te_d e), (te_k e), es2. split; [rewrite -/es Hes'; by destruct e|]. split; reflexivity. }
        rewrite big_sepL_app /=. iDestruct "Hr" as "(Hr1 & Hre & Hr2)".
        iDestruct (pool_give 4 with "[Hn Hv Hd Hi] Hre Hpool") as "Hpool"; [lia| |].
        { rewrite fnode4 /freenode. iSplit; [done|]. iSplitL "Hn"; [|iSplitL "Hv"; [|iSplitL "Hd"]]; iExists _; iFrame; iPureIntro; right; eauto. }
        rewrite /XR /= Hcfg. iFrame "Hpool". iSplit; [iPureIntro; by apply es_ok_remove|]. iExists a', al, ibl'. rewrite big_sepL_app. iFrame.
        iPureIntro. split; [|done]. do 3 f_equal. rewrite !app_length /= /sub64. rewrite Z.mod_small; lia.
      + (* search *)
        wp_bind. rewrite /trie_search. wp_bind. iApply (wp_bucket with "HB"); [lia|done|done|]. iIntros "HB".
        iAssert (bucketsR bs es ibl -∗ Φ (Some (Trie tb (Z.of_nat (length es)) (Z.of_nat (length ibl)), a), KWord (match with_key k es with e :: _ => te_d e | [] => 0 end)))%I
          with "[-HB]" as "Hfin".
        { iIntros "HB". iApply ("HΦ" $! _ _ s with "[]"). { iPureIntro. exists (xs_k s). split; [done|by destruct s]. }
          rewrite /XR Hcfg. iFrame "Hpool". iSplit; [done|]. iExists a, al, ibl. iSplit; [done|]. iFrame "Ha HB Hbl Hr". }
        destruct (with_key k es) as [|e l] eqn:Hw.
        * wp_if. wp_ret. wp_ret. by iApply "Hfin".
        * iDestruct (buckets_acc _ _ _ k with "HB") as "[HL HB]"; [done|by rewrite Hw|]. rewrite Hw fmap_cons.
          iDestruct (leafR_data with "HL") as "(%Hp & Hd & HL)". simpl in Hp. simpl hd_p. iApply wp_if_false; [rewrite /null; lia|]. simpl e_p. simpl e_d.
          wp_load. wp_ret. iApply "Hfin". iApply "HB". by iApply "HL".
      + (* bucket *)
        wp_bind. iApply (wp_bucket with "HB"); [lia|done|done|]. iIntros "HB". wp_bind.
        iAssert (bucketsR bs es ibl -∗ Φ (Some (Trie tb (Z.of_nat (length es)) (Z.of_nat (length ibl)), a), KNodes ((λ x, (e_p x, e_d x)) <$> (toel <$> with_key k es))))%I
          with "[-HB]" as "Hfin".
        { iIntros "HB". iApply ("HΦ" $! _ _ s with "[]"). { iPureIntro. exists (xs_k s). split; [|by destruct s]. split; [|done]. by rewrite -list_fmap_compose. }
          rewrite /XR Hcfg. iFrame "Hpool". iSplit; [done|]. iExists a, al, ibl. iSplit; [done|]. iFrame "Ha HB Hbl Hr". }
        destruct (decide (with_key k es = [])) as [Hw|Hw].
        * rewrite Hw. iApply (wp_list_walk _ [] 0); [simpl; lia|done|]. iIntros "_". wp_ret. by iApply "Hfin".
        * iDestruct (buckets_acc _ _ _ k with "HB") as "[[%HF HL] HB]"; [done|done|].
          iApply (wp_list_walk with "HL"). { rewrite fmap_length. etrans; [apply filter_length|]. simpl trie_count. rewrite Nat2Z.id. done. }
          iIntros "HL". wp_ret. iApply "Hfin". iApply "HB". iSplit; [iPureIntro; exact HF|]. iExact "HL".
      + (* count *)
        wp_ret. iApply ("HΦ" $! _ _ s with "[]"). { iPureIntro. exists (xs_k s). split; [done|by destruct s]. }
        rewrite /XR Hcfg. iFrame "Hpool". iSplit; [done|]. iExists a, al, ibl. iSplit; [done|]. iFrame "Ha HB Hbl Hr".
    - (* memory_usage *)
      iDestruct (usage_bound with "HB") as %Hub; [done..|].
      rewrite /xstep. wp_ret. iApply ("HΦ" $! _ _ s with "[]").
      { iPureIntro. split; [|done]. f_equal. rewrite -/es -Hcnt /trie_memory_usage /trie_count /=. change TRIE_BLOCK_SIZE with 64. rewrite /wrap !Z.mod_small; lia. }
      rewrite /XR Hcfg. iFrame "Hpool". iSplit; [done|]. iExists a, al, ibl. iSplit; [done|]. iFrame "Ha HB Hbl Hr".
    - (* alloc *)
      iDestruct "Ha" as (freed own) "(%Hd & Ha & Hc)". rewrite /xstep. wp_bind. iApply (wp_alloc_block bs al HG Henv with "Ha Hc"); [done|].
      iIntros (p t' own' Hp Hd' _ _) "Ha Hc Hb". wp_ret. simpl. destruct (blk_add _ _ _ Hp Hdis) as (Hp' & Hdis' & Heq).
      iApply ("HΦ" with "[]"). { iPureIntro. exists bs, bl, p. split; [done|]. split; [done|]. done. }
      rewrite /XR /=. iFrame "Hpool". iSplit; [done|]. iExists t', al, ibl. iSplit; [done|].
      rewrite big_sepS_insert //. iFrame "Hb Hbl HB Hr". iApply (allocH_eq _ _ _ _ ({[p]} ∪ (list_to_set ibl ∪ bl))); [by rewrite Heq|].
      iExists _, _. iSplit; [done|]. iFrame "Ha Hc".
    - (* write *)
      destruct Hpre as (bs' & bl' & [= <- <-]%(eq_trans (eq_sym Hcfg)) & Hp & Hj).
      rewrite (big_sepS_delete _ bl p) //. iDestruct "Hbl" as "[Hb Hbl]". rewrite {1}/blockR.
      iDestruct (big_sepL_lookup_acc _ _ (Z.to_nat j) (p + 8 * j) with "Hb") as "[(%c & %Hc & Hw) Hb]".
      { rewrite /wcells list_lookup_fmap lookup_seq_lt; [|lia]. simpl. f_equal. lia. }
      rewrite /xstep. wp_bind. iApply (wp_store with "Hw"); [done|]. iIntros "Hw". wp_ret.
      iApply ("HΦ" $! _ _ s with "[//]"). rewrite /XR Hcfg. iFrame "Hpool". iSplit; [done|]. iExists a, al, ibl. iSplit; [done|]. iFrame "Ha HB Hr".
      rewrite (big_sepS_delete _ bl p) //. iFrame "Hbl". iApply "Hb". iExists _. iFrame. iPureIntro. right; eauto.
    - (* free *)
      destruct Hpre as (bs' & bl' & [= <- <-]%(eq_trans (eq_sym Hcfg)) & Hp).
      rewrite (big_sepS_delete _ bl p) //. iDestruct "Hbl" as "[Hb Hbl]".
      iDestruct "Ha" as (freed own) "(%Hd & Ha & Hc)". rewrite /xstep. wp_bind.
      destruct (blk_del _ _ _ Hp Hdis) as (Hp' & Hdis' & Heq). iApply (wp_free_block bs al HG Henv with "Ha Hb"); [done|]. iIntros (t') "Ha". wp_ret.
      iApply ("HΦ" with "[]"). { iPureIntro. exists bs, bl. done. }
      rewrite /XR /=. iFrame "Hpool". iSplit; [done|]. iExists t', al, ibl. iSplit; [done|]. iFrame "HB Hbl Hr".
      iApply (allocH_eq _ _ _ _ ((list_to_set ibl ∪ bl) ∖ {[p]})); [by rewrite Heq|].
      iExists _, _. iSplit; [done|]. iFrame "Ha Hc".
    - (* allocator usage *)
      rewrite /xstep. wp_ret. iApply ("HΦ" $! _ _ s with "[]").
      { iPureIntro. exists bs, bl. split; [done|]. split; [|done]. f_equal. rewrite -/es -Hcnt /allocator_memory_usage Hac Habs /wrap Z.mod_small; nia. }
      rewrite /XR Hcfg. iFrame "Hpool". iSplit; [done|]. iExists a, al, ibl. iSplit; [done|]. iFrame "Ha HB Hbl Hr".
    - (* done *)
      iDestruct (buckets_open with "HB") as "(Hw & Hm & Hib)"; [done|done|].
      iDestruct "Ha" as (freed own) "(%Hd & Ha & Hc)". rewrite /xstep. wp_bind.
      iApply (wp_allocator_done bs al HG with "Ha [Hib Hbl] Hc"); [done| |].
      { rewrite big_sepS_union //. iFrame. by rewrite big_sepS_list_to_set. }
      iIntros (t') "Ha Hc". wp_ret. iDestruct (nodes_give_back with "Hm Hr Hpool") as "Hpool".
      iApply ("HΦ" with "[//]"). rewrite /XR /=. iFrame. iPureIntro. split; [|done]. by apply es_ok_clear.
  Qed.
End xstep.

Local Arguments node_cells : simpl never.
Definition xboth (s : xstate) (o : xop) (a : kout) (s' : xstate) : Prop := xpre s o ∧ xpost s o a s'.
Definition trie_end_both (om : objmap) (live : gmap Z region) (cs : option (trie * allocator))
    (tr : list (xop * kout)) (m' : mem) : Prop :=
  ∃ s' own, correct xboth (xstate0 om live) tr s' ∧ heap_live m' (own ∪ xs_live s') ∧
    own ##ₘ xs_live s' ∧
    match xs_cfg s' with
    | None => cs = None ∧ own = ∅
    | Some (bs, bl) => ∃ t al, cs = Some (t, al) ∧
        tri_count t = Z.of_nat (length (ks_es (xs_k s'))) ∧
        tri_node_count t = Z.of_nat (inner_count (keys (ks_es (xs_k s')))) ∧
        al_count al = (tri_node_count t + Z.of_nat (size bl))%Z
    end.

Lemma trie_history_both om tb live m fuel c :
  trie_start om tb live m → (10 ≤ fuel)%nat →
  allowed xpre xpost (xstate0 om live) c →
  safe (run (xstep fuel tb) None c m) (λ r m',
    trie_end_both om live r.1 r.2 m' ∧ unchanged_outside (HCTL :: node_cells 32 tb ++ objs_cells om) m m').
Proof.
  intros (Hok & Hbuck & (h & Hh & <-)) Hf Ha. apply allowed_both in Ha.
  pose proof (client_adequacy True (run (xstep fuel tb) None c) 4 om (HCTL :: node_cells 32 tb) m
    (λ r m', trie_end_both om (hc_live h) r.1 r.2 m') Hok) as Had.
  apply Had.
  { intros a [->|Hin]%elem_of_cons; [eauto|]. destruct (Hbuck a Hin) as (c0 & ? & _). eauto. }
  clear Had. intros HG HE _. assert (Henv : memG_env) by (rewrite HE; done). iIntros "(Hc & Hw) Hpool".
  iApply (wp_run _ xpre xboth (XR om tb) with "[Hc Hw Hpool]").
  - intros cs s o Φ Hpre. iIntros "HR HΦ". iApply (wp_xstep Henv with "HR"); [eauto|done|done|].
    iIntros (cs' a s' Hp) "HR". iApply ("HΦ" with "[] HR"). done.
  - exact Ha.
  - rewrite /XR. cbn [xs_cfg xs_k xs_live xstate0 ks_es ks_free]. iFrame "Hpool". iSplit.
    { iPureIntro. split; [constructor|]. split; [by intros e He%elem_of_nil|]. split; [constructor|]. split; [constructor|done]. }
    iSplit; [done|]. iSplitL "Hc".
    + iDestruct "Hc" as (c0 Hc0) "Hc". simplify_eq. iExists (hc_oracle h), (hc_next h). by destruct h.
    + iApply (big_sepL_impl with "Hw"). iIntros "!>" (i a Hi) "(%c0 & %Hc0 & Hw)". iExists c0. iFrame. iPureIntro.
      destruct (Hbuck a) as (c1 & ? & ?); [by eapply elem_of_list_lookup_2|]. by simplify_eq.
  - iIntros (cs tr s' Hcor) "(_ & %Hes & HR)". iIntros (m') "Hm". rewrite /trie_end_both.
    destruct (xs_cfg s') as [[bs bl]|] eqn:Hcfg.
    + iDestruct "HR" as (a al ibl (-> & HGeo & Hbs & Hnd & Hdis)) "(Ha & HB & _ & _)".
      iDestruct (buckets_count with "HB") as %Hcnt; [done|].
      iDestruct (allocH_size with "Ha") as %(Hac & _); [done..|].
      iDestruct "Ha" as (freed own) "(%Hd & Ha & (%o & %n & Hc))". iDestruct (memI_lookup with "Hm Hc") as %Hl.
      iPureIntro. exists s', own. split; [done|]. split; [by eexists|]. split; [done|]. rewrite Hcfg. eexists _, a. split; [done|]. simpl. rewrite Hcnt in Hac |- *. done.
    + iDestruct "HR" as "([-> _] & (%o & %n & Hc) & _)". iDestruct (memI_lookup with "Hm Hc") as %Hl.
      iPureIntro. exists s', ∅. split; [done|]. rewrite left_id_L Hcfg. split; [by eexists|]. split; [apply map_disjoint_empty_l|done].
Qed.

Lemma trie_history om tb live m fuel c :
  trie_start om tb live m → (10 ≤ fuel)%nat →
  allowed xpre xpost (xstate0 om live) c →
  safe (run (xstep fuel tb) None c m) (λ r m',
    trie_end om live r.1 r.2 m' ∧ unchanged_outside (HCTL :: node_cells 32 tb ++ objs_cells om) m m').
Proof.
  intros Hs Hf Ha. eapply safe_mono; [by apply trie_history_both|]. simpl. intros r m' [(s' & own & Hc & H1) H2]. split; [|done].
  exists s', own. split; [|done]. by eapply correct_mono; [|exact Hc]; intros ? ? ? ? [_ ?].
Qed.
