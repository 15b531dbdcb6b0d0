(** * Consequences of the history theorem of the arrays. *)
From Verif Require Export ListHist TableProps ArrayBlkProof.
Global Open Scope Z_scope.

Section trace.
  Variable T : arrays.
  Notation w := (ay_words T).
  Notation acorrect live := (correct (apost T) (astate0 live)).

  Lemma correct_snoc_inv {op out sst} (post : sst → op → out → sst → Prop) s tr o a s'' :
    correct post s (tr ++ [(o, a)]) s'' → ∃ s', correct post s tr s' ∧ post s' o a s''.
  Proof.
    intros Hc. apply correct_app in Hc as (s1 & Hc1 & Hc2). inversion Hc2 as [|? ? ? s2 ? ? Hp Hc3]; subst.
    inversion Hc3; subst. eauto.
  Qed.

  Lemma apost_live s o a s' : apost T s o a s' → as_live s' = as_live s.
  Proof. intros Hp. destruct o; simpl in Hp; naive_solver. Qed.
  Lemma acorrect_live live tr s : acorrect live tr s → as_live s = live.
  Proof.
    revert s. induction tr as [|[o a] tr IH] using rev_ind; intros s Hc.
    - by inversion Hc; subst.
    - apply correct_snoc_inv in Hc as (s' & Hc & Hp). rewrite (apost_live _ _ _ _ Hp). by apply IH.
  Qed.

  (** Addresses and lengths are kept. *)
  Definition same_shape (es es' : list elt) : Prop :=
    length es = length es' ∧ ∀ i e e', es !! i = Some e → es' !! i = Some e' →
      el_addr e = el_addr e' ∧ length (el_vals e) = length (el_vals e').
  Lemma same_shape_insert es i e e' : es !! i = Some e → el_addr e' = el_addr e →
    length (el_vals e') = length (el_vals e) → same_shape es (<[i := e']> es).
  Proof.
    intros Hi Ha Hl. split; [by rewrite insert_length|]. intros j x x' Hx Hx'.
    destruct (decide (i = j)) as [<-|].
    - rewrite list_lookup_insert in Hx'; [|by eapply lookup_lt_Some]. naive_solver.
    - rewrite list_lookup_insert_ne // in Hx'. naive_solver.
  Qed.
  Lemma same_shape_awf es es' own live : same_shape es es' → awf w es own live → awf w es' own live.
  Proof.
    intros [Hl Hs] (H1 & H2 & H3 & H4).
    assert (Hb : ∀ i e', es' !! i = Some e' → ∃ e, es !! i = Some e ∧ el_addr e' = el_addr e ∧ el_size w e' = el_size w e).
    { intros i e' Hi. destruct (lookup_lt_is_Some_2 es i) as [e He]; [rewrite Hl; by eapply lookup_lt_Some|].
      exists e. destruct (Hs i e e' He Hi) as [Ha Hlen]. split; [done|]. split; [done|]. rewrite /el_size Hlen //. }
    split; [done|]. split; [done|]. split.
    - intros i j e e' Hi Hj Hij. destruct (Hb _ _ Hi) as (x & Hx & -> & ->). destruct (Hb _ _ Hj) as (y & Hy & -> & ->).
      by eapply H3.
    - intros e [i Hi]%elem_of_list_lookup. destruct (Hb _ _ Hi) as (x & Hx & -> & ->). apply H4. by eapply elem_of_list_lookup_2.
  Qed.

  (** What holds after any correct transcript. *)
  Definition ashape (tr : list (aop * aout)) (s : astate) : Prop :=
    match as_arr s with
    | None => avec tr = []
    | Some (k, es) => length es = length (avec tr) ∧ awf w es (as_own s) (as_live s) ∧
        Forall (λ e, length (el_vals e) = k) es ∧ (w = true → k = 1%nat) ∧
        unit_size w * Z.of_nat k = elem_bytes T tr
    end.

  Lemma avec_snoc tr x : avec (tr ++ [x]) = avec_step (avec tr) x.
  Proof. rewrite /avec foldl_app //. Qed.
  Lemma elem_bytes_snoc tr o a : (∀ k, o ≠ AInit k) → elem_bytes T (tr ++ [(o, a)]) = elem_bytes T tr.
  Proof. intros Ho. rewrite /elem_bytes. destruct w; [done|]. rewrite foldl_app /=. destruct o; try done. by destruct (Ho k). Qed.

  Lemma ashape_ok live tr s : acorrect live tr s → ashape tr s.
  Proof.
    revert s. induction tr as [|[o a] tr IH] using rev_ind; intros s Hc.
    - inversion Hc; subst. done.
    - apply correct_snoc_inv in Hc as (s' & Hc & Hp). specialize (IH _ Hc). rewrite /ashape in IH |- *.
      rewrite avec_snoc /avec_step.
      destruct o; simpl in Hp |- *; try (rewrite elem_bytes_snoc; [|done]).
      + destruct Hp as (-> & own & -> & Hw). simpl. split; [done|]. split; [done|]. split; [constructor|].
        rewrite /elem_bytes foldl_app /=. destruct w; simpl; [done|]. split; [done|lia].
      + destruct Hp as (-> & k & es & news & own & Hs & -> & [Hz Hz0] & Hsub & Hw). rewrite Hs in IH. simpl.
        destruct IH as (Hl & _ & HF & Hk & Hb). rewrite !app_length replicate_length.
        split; [lia|]. split; [done|]. split; [|done]. apply Forall_app. split; [done|].
        eapply Forall_impl; [exact Hz0|]. intros e ->. apply replicate_length.
      + destruct Hp as (k & es & Hs & -> & ->). done.
      + destruct Hp as [-> ->]. done.
      + destruct Hp as (k & es & e & Hs & He & -> & ->). done.
      + destruct Hp as (es & e & Hs & He & -> & ->). rewrite Hs in IH. simpl.
        destruct IH as (Hl & Hw & HF & Hk & Hb). rewrite !insert_length. split; [done|].
        assert (Hl1 : length (el_vals e) = 1%nat) by (rewrite Forall_lookup in HF; by eapply HF).
        split; [eapply same_shape_awf; [|exact Hw]; by eapply same_shape_insert|].
        split; [by apply Forall_insert|done].
      + destruct Hp as (k & es & p & v & Hs & He & -> & ->). done.
      + destruct Hp as (-> & es & p & own & Hs & -> & Hsub & Hw). rewrite Hs in IH. simpl.
        destruct IH as (Hl & _ & HF & Hk & Hb). rewrite !app_length /=. split; [lia|]. split; [done|].
        split; [|done]. apply Forall_app. split; [done|]. by repeat constructor.
      + destruct Hp as (k & es & e & j & v & Hs & He & Hv & -> & -> & ->). done.
      + destruct Hp as (k & es & i & e & j & Hs & He & Hj & -> & -> & ->). rewrite Hs in IH. simpl.
        destruct IH as (Hl & Hw & HF & Hk & Hb). rewrite !insert_length. split; [done|].
        assert (Hl1 : length (el_vals e) = k) by (rewrite Forall_lookup in HF; by eapply HF).
        split; [eapply same_shape_awf; [|exact Hw]; eapply same_shape_insert; [done|done|by rewrite /= insert_length]|].
        split; [apply Forall_insert; [done|by rewrite /= insert_length]|done].
      + destruct Hp as [-> ->]. done.
  Qed.

  (** The values of an array of pointers. *)
  Lemma avec_ok live tr s k es : w = true → acorrect live tr s → as_arr s = Some (k, es) →
    Forall (λ x, ¬ is_write x) tr → el_vals <$> es = (λ v, [v]) <$> avec tr.
  Proof.
    intros Hw. revert s k es. induction tr as [|[o a] tr IH] using rev_ind; intros s k es Hc Hs HF.
    - inversion Hc; subst. done.
    - apply correct_snoc_inv in Hc as (s' & Hc & Hp). apply Forall_app in HF as [HF Ho]. apply Forall_cons in Ho as [Ho _].
      rewrite avec_snoc /avec_step. pose proof (ashape_ok _ _ _ Hc) as Hsh. rewrite /ashape in Hsh.
      destruct o; simpl in Hp |- *.
      + destruct Hp as (-> & own & -> & _). simpl in Hs. by injection Hs as <- <-.
      + destruct Hp as (-> & k' & es' & news & own & Hs' & -> & [Hz Hz0] & Hsub & _). simpl in Hs. injection Hs as <- <-.
        rewrite Hs' in Hsh. destruct Hsh as (Hl & _ & _ & Hk & _). rewrite (Hk Hw) in Hz0, Hs'.
        rewrite !fmap_app (IH _ _ _ Hc Hs' HF). f_equal.
        replace (Z.to_nat n - length (avec tr))%nat with (length news) by lia.
        clear -Hz0. induction Hz0 as [|e news He _ IH]; [done|]. csimpl. by rewrite He IH.
      + destruct Hp as (? & ? & _ & -> & ->). by eapply IH.
      + destruct Hp as [-> ->]. by eapply IH.
      + destruct Hp as (? & ? & e & _ & _ & -> & ->). by eapply IH.
      + destruct Hp as (es' & e & Hs' & He & -> & ->). simpl in Hs. injection Hs as <- <-.
        rewrite !list_fmap_insert (IH _ _ _ Hc Hs' HF) //.
      + destruct Hp as (? & ? & ? & ? & _ & _ & -> & ->). by eapply IH.
      + destruct Hp as (-> & es' & p & own & Hs' & -> & _). simpl in Hs. injection Hs as <- <-.
        rewrite !fmap_app (IH _ _ _ Hc Hs' HF) //.
      + destruct Hp as (? & ? & ? & ? & ? & _ & _ & _ & _ & -> & ->). by eapply IH.
      + exfalso. apply Ho. exact I.
      + destruct Hp as [-> ->]. done.
  Qed.

  (** The bytes of the elements. *)
  Lemma last_write_snoc p tr x : last_write p (tr ++ [x]) =
    match x.1 with AInit _ => 0 | AWrite q v => if decide (q = p) then v else last_write p tr | _ => last_write p tr end.
  Proof. rewrite /last_write foldl_app //. Qed.

  Lemma cell_unique es own live i e j i' e' j' : awf w es own live →
    es !! i = Some e → es !! i' = Some e' → (j < length (el_vals e))%nat → (j' < length (el_vals e'))%nat →
    el_cell w e j = el_cell w e' j' → i = i' ∧ j = j'.
  Proof.
    intros (_ & _ & Hap & _) Hi Hi' Hj Hj' Heq. rewrite /el_cell in Heq.
    destruct (decide (i = i')) as [<-|Hne].
    - split; [done|]. assert (e = e') by congruence. subst e'. destruct w; simpl in Heq; lia.
    - exfalso. pose proof (Hap _ _ _ _ Hi Hi' Hne) as Ha. rewrite /apart /el_size in Ha. destruct w; simpl in Heq, Ha; lia.
  Qed.

  Definition awritten (tr : list (aop * aout)) (es : list elt) : Prop :=
    (∀ e j v, e ∈ es → el_vals e !! j = Some v → v = last_write (el_cell w e j) tr) ∧
    (∀ q, last_write q tr ≠ 0 → ∃ e j, e ∈ es ∧ (j < length (el_vals e))%nat ∧ q = el_cell w e j).

  Lemma awritten_ok live tr s k es : acorrect live tr s → as_arr s = Some (k, es) →
    Forall (λ x, ¬ is_set x) tr → awritten tr es.
  Proof.
    revert s k es. induction tr as [|[o a] tr IH] using rev_ind; intros s k es Hc Hs HF.
    - inversion Hc; subst. done.
    - apply Forall_app in HF as [HF Ho]. apply Forall_cons in Ho as [Ho _].
      pose proof (ashape_ok _ _ _ Hc) as Hsh'. rewrite /ashape Hs in Hsh'.
      apply correct_snoc_inv in Hc as (s' & Hc & Hp).
      pose proof (ashape_ok _ _ _ Hc) as Hsh. rewrite /ashape in Hsh.
      rewrite /awritten. setoid_rewrite last_write_snoc.
      destruct o; simpl in Hp |- *.
      + destruct Hp as (-> & own & -> & _). simpl in Hs. injection Hs as <- <-. split; [|done]. intros e j v He. by apply elem_of_nil in He.
      + destruct Hp as (-> & k' & es' & news & own & Hs' & -> & [Hz Hz0] & Hsub & Hw). simpl in Hs. injection Hs as <- <-.
        destruct (IH _ _ _ Hc Hs' HF) as [H1 H2]. split.
        * intros e j v [He|He]%elem_of_app Hv; [by apply H1|].
          assert (v = 0) as ->.
          { rewrite Forall_forall in Hz0. rewrite (Hz0 _ He) in Hv. by apply lookup_replicate_1 in Hv as [-> _]. }
          destruct (decide (last_write (el_cell w e j) tr = 0)) as [|Hne]; [done|]. exfalso.
          destruct (H2 _ Hne) as (e' & j' & He' & Hj' & Heq).
          apply elem_of_list_lookup in He as [i Hi]. apply elem_of_list_lookup in He' as [i' Hi'].
          destruct (cell_unique (es' ++ news) own (as_live s') (length es' + i) e j i' e' j' Hw) as [Hii _].
          -- rewrite lookup_app_r; [|lia]. replace (length es' + i - length es')%nat with i by lia. done.
          -- by apply lookup_app_l_Some.
          -- by eapply lookup_lt_Some. -- done. -- done.
          -- apply lookup_lt_Some in Hi'. lia.
        * intros q Hq. destruct (H2 _ Hq) as (e' & j' & He' & Hj' & Heq). exists e', j'. split; [set_solver|done].
      + destruct Hp as (? & ? & _ & -> & ->). by eapply IH.
      + destruct Hp as [-> ->]. by eapply IH.
      + destruct Hp as (? & ? & e & _ & _ & -> & ->). by eapply IH.
      + exfalso. apply Ho. exact I.
      + destruct Hp as (? & ? & ? & ? & _ & _ & -> & ->). by eapply IH.
      + exfalso. apply Ho. exact I.
      + destruct Hp as (? & ? & ? & ? & ? & _ & _ & _ & _ & -> & ->). by eapply IH.
      + destruct Hp as (k' & es' & i & e & j & Hs' & He & Hj & -> & -> & ->). simpl in Hs. injection Hs as <- <-.
        rewrite Hs' in Hsh. destruct Hsh as (_ & Hw & _). destruct (IH _ _ _ Hc Hs' HF) as [H1 H2].
        pose proof (lookup_lt_Some _ _ _ He) as Hlt. split.
        * intros x jx vx [ix Hx]%elem_of_list_lookup Hv.
          destruct (decide (i = ix)) as [<-|Hne].
          -- rewrite list_lookup_insert // in Hx. injection Hx as <-. simpl in Hv.
             destruct (decide (j = jx)) as [<-|Hnj].
             ++ rewrite list_lookup_insert // in Hv. injection Hv as <-. by rewrite decide_True.
             ++ rewrite list_lookup_insert_ne // in Hv. rewrite decide_False.
                ** apply (H1 e jx); [by eapply elem_of_list_lookup_2|done].
                ** rewrite /el_cell /=. destruct w; simpl; lia.
          -- rewrite list_lookup_insert_ne // in Hx. rewrite decide_False.
             ++ apply (H1 x jx); [by eapply elem_of_list_lookup_2|done].
             ++ intros Heq. destruct (cell_unique _ _ _ _ _ _ _ _ _ Hw He Hx Hj (lookup_lt_Some _ _ _ Hv) Heq). done.
        * intros q Hq.
          assert (∃ ix x jx, es' !! ix = Some x ∧ (jx < length (el_vals x))%nat ∧ q = el_cell w x jx) as (ix & x & jx & Hx & Hjx & ->).
          { destruct (decide (el_cell w e j = q)) as [<-|]; [by exists i, e, j|].
            destruct (H2 _ Hq) as (x & jx & [ix Hx]%elem_of_list_lookup & ? & ?). by exists ix, x, jx. }
          destruct (decide (i = ix)) as [<-|Hne].
          -- rewrite He in Hx. injection Hx as <-. exists (Elt (el_addr e) (<[j:=v]> (el_vals e))), jx.
             split; [apply elem_of_list_lookup; exists i; by apply list_lookup_insert|]. split; [by rewrite /= insert_length|done].
          -- exists x, jx. split; [|done]. apply elem_of_list_lookup. exists ix. by rewrite list_lookup_insert_ne.
      + destruct Hp as [-> ->]. done.
  Qed.

  (** The addresses do not change while the array lives. *)
  Lemma addr_kept s o a s' k es : apost T s o a s' → ¬ is_reset (o, a) → as_arr s = Some (k, es) →
    ∃ es', as_arr s' = Some (k, es') ∧ ∀ i e, es !! i = Some e → ∃ e', es' !! i = Some e' ∧ el_addr e' = el_addr e.
  Proof.
    intros Hp Hd Hs. destruct o; simpl in Hp; try done; try (naive_solver; fail).
    - destruct Hp as (-> & k' & es' & news & own & Hs' & -> & _). rewrite Hs in Hs'. injection Hs' as <- <-.
      eexists. split; [done|]. intros i e He. exists e. split; [by apply lookup_app_l_Some|done].
    - destruct Hp as (es' & e & Hs' & He & -> & ->). rewrite Hs in Hs'. injection Hs' as -> <-.
      eexists. split; [done|]. intros i' e' He'. destruct (decide (Z.to_nat i = i')) as [<-|].
      + eexists. split; [apply list_lookup_insert; by eapply lookup_lt_Some|]. simpl. congruence.
      + exists e'. rewrite list_lookup_insert_ne //.
    - destruct Hp as (-> & es' & p & own & Hs' & -> & _). rewrite Hs in Hs'. injection Hs' as -> <-.
      eexists. split; [done|]. intros i e He. exists e. split; [by apply lookup_app_l_Some|done].
    - destruct Hp as (k' & es' & i & e & j & Hs' & He & Hj & -> & -> & ->). rewrite Hs in Hs'. injection Hs' as <- <-.
      eexists. split; [done|]. intros i' e' He'. destruct (decide (i = i')) as [<-|].
      + eexists. split; [apply list_lookup_insert; by eapply lookup_lt_Some|]. simpl. congruence.
      + exists e'. rewrite list_lookup_insert_ne //.
  Qed.
End trace.

Lemma correct_join {op out sst} (post : sst → op → out → sst → Prop) s tr1 s1 tr2 s2 :
  correct post s tr1 s1 → correct post s1 tr2 s2 → correct post s (tr1 ++ tr2) s2.
Proof. induction 1 as [|s o a s' tr s'' Hp Hc IH]; intros H2; [done|]. simpl. econstructor; [exact Hp|by apply IH]. Qed.

Section props.
  Variables (T : arrays) (inv : ay_st T → Z → Z → Prop).
  Hypothesis Hproof : ∀ `{!memG}, memG_env → array_proof T inv.
  Notation w := (ay_words T).

  Lemma ahist_any (Q : gmap Z region → option (ay_st T) → list (aop * aout) → mem → Prop) :
    (∀ live cs tr m', array_end T inv live cs tr m' → Q live cs tr m') → after_any_array_history T Q.
  Proof.
    intros HQ live m c Hl Ha. pose proof (array_history T inv live m c (@Hproof) Hl Ha) as H.
    unfold safe in *. destruct (run (astep T) None c m) as [r m'| | |]; try done. apply HQ, H.
  Qed.

  Lemma ahist_op (Q : list (aop * aout) → aop → aout → Prop) :
    (∀ live tr s o a s', correct (apost T) (astate0 live) tr s → apost T s o a s' → Q tr o a) →
    after_any_array_history T (λ _ _ tr _, ∀ tr0 o a tr1, tr = tr0 ++ (o, a) :: tr1 → Q tr0 o a).
  Proof.
    intros HQ. apply ahist_any. intros live cs tr m' (s' & Hc & _) tr0 o a tr1 ->.
    apply correct_app in Hc as (s & Hc1 & Hc2). inversion Hc2 as [|? ? ? s1 ? ? Hp Hc3]; subst.
    eapply HQ; [exact Hc1|exact Hp].
  Qed.

  Lemma after_mono (Q R : gmap Z region → option (ay_st T) → list (aop * aout) → mem → Prop) :
    (∀ live cs tr m', Q live cs tr m' → R live cs tr m') → after_any_array_history T Q → after_any_array_history T R.
  Proof.
    intros HQ H live m c Hl Ha. specialize (H live m c Hl Ha). unfold safe in *.
    destruct (run (astep T) None c m) as [r m'| | |]; try done. by apply HQ.
  Qed.

  Lemma array_size_vec : after_any_array_history T (λ _ _ tr _, ∀ tr0 a tr1,
    tr = tr0 ++ (ASize, a) :: tr1 → a = AOWord (Z.of_nat (length (avec tr0)))).
  Proof.
    eapply after_mono; [|apply (ahist_op (λ tr o a, o = ASize → a = AOWord (Z.of_nat (length (avec tr)))))].
    - simpl. intros _ _ tr _ H tr0 a tr1 ->. by eapply H.
    - intros live tr s o a s' Hc Hp ->. simpl in Hp. destruct Hp as (k & es & Hs & -> & _).
      pose proof (ashape_ok _ _ _ _ Hc) as Hsh. rewrite /ashape Hs in Hsh. destruct Hsh as [-> _]. done.
  Qed.

  Lemma array_get_vec : w = true → after_any_array_history T (λ _ _ tr _, ∀ tr0 i a tr1,
    tr = tr0 ++ (AGet i, a) :: tr1 → Forall (λ x, ¬ is_write x) tr0 →
    ∃ v, avec tr0 !! Z.to_nat i = Some v ∧ a = AOWord v).
  Proof.
    intros Hw.
    eapply after_mono; [|apply (ahist_op (λ tr o a, ∀ i, o = AGet i → Forall (λ x, ¬ is_write x) tr →
      ∃ v, avec tr !! Z.to_nat i = Some v ∧ a = AOWord v))].
    - simpl. intros _ _ tr _ H tr0 i a tr1 -> HF. by eapply H.
    - intros live tr s o a s' Hc Hp i -> HF. simpl in Hp. destruct Hp as (k & es & p & v & Hs & He & -> & ->).
      pose proof (avec_ok _ _ _ _ _ _ Hw Hc Hs HF) as Hv. exists v. split; [|done].
      assert (Hq : (el_vals <$> es) !! Z.to_nat i = Some [v]) by by rewrite list_lookup_fmap He.
      rewrite Hv list_lookup_fmap in Hq. destruct (avec tr !! Z.to_nat i) as [z|]; [|done]. simpl in Hq. by injection Hq as ->.
  Qed.

  Lemma array_read_zero : after_any_array_history T (λ _ _ tr _, ∀ tr0 p a tr1,
    tr = tr0 ++ (ARead p, a) :: tr1 → Forall (λ x, ¬ is_set x) tr0 → a = AOWord (last_write p tr0)).
  Proof.
    eapply after_mono; [|apply (ahist_op (λ tr o a, ∀ p, o = ARead p → Forall (λ x, ¬ is_set x) tr →
      a = AOWord (last_write p tr)))].
    - simpl. intros _ _ tr _ H tr0 i a tr1 -> HF. by eapply H.
    - intros live tr s o a s' Hc Hp p -> HF. simpl in Hp. destruct Hp as (k & es & e & j & v & Hs & He & Hv & -> & -> & ->).
      destruct (awritten_ok _ _ _ _ _ _ Hc Hs HF) as [H1 _]. by rewrite -(H1 _ _ _ He Hv).
  Qed.

  (** Two references taken during the life of an array. *)
  Lemma refs_alive live tr1 : ∀ tr0 s k es i e s',
    correct (apost T) (astate0 live) tr0 s → as_arr s = Some (k, es) → es !! i = Some e →
    correct (apost T) s tr1 s' → Forall (λ x, ¬ is_reset x) tr1 →
    ∃ es' e', as_arr s' = Some (k, es') ∧ es' !! i = Some e' ∧ el_addr e' = el_addr e ∧
      elem_bytes T (tr0 ++ tr1) = elem_bytes T tr0.
  Proof.
    induction tr1 as [|[o a] tr1 IH]; intros tr0 s k es i e s' Hc Hs He Hc1 HF.
    - inversion Hc1; subst. rewrite right_id_L. eauto 10.
    - inversion Hc1 as [|? ? ? s1 ? ? Hp Hc2]; subst. apply Forall_cons in HF as [Ho HF].
      destruct (addr_kept _ _ _ _ _ _ _ Hp Ho Hs) as (es1 & Hs1 & H1). destruct (H1 _ _ He) as (e1 & He1 & Ha1).
      destruct (IH (tr0 ++ [(o, a)]) s1 k es1 i e1 s') as (es' & e' & Hs' & He' & Ha' & Hb); try done.
      { by eapply correct_snoc. }
      exists es', e'. split; [done|]. split; [done|]. split; [congruence|].
      rewrite -assoc_L /= in Hb. rewrite Hb. apply elem_bytes_snoc. intros n ->. apply Ho. exact I.
  Qed.

  Lemma array_refs : after_any_array_history T (λ _ _ tr _, ∀ tr0 i p tr1 j q tr2,
    tr = tr0 ++ (ARef i, AOWord p) :: tr1 ++ (ARef j, AOWord q) :: tr2 → Forall (λ x, ¬ is_reset x) tr1 →
    0 ≤ i → 0 ≤ j → if decide (i = j) then p = q else apart p (elem_bytes T tr0) q (elem_bytes T tr0)).
  Proof.
    apply ahist_any. intros live cs tr m' (s' & Hc & _) tr0 i p tr1 j q tr2 -> HF Hi Hj.
    apply correct_app in Hc as (s & Hc1 & Hc2). inversion Hc2 as [|? ? ? s1 ? ? Hp Hc3]; subst.
    apply correct_app in Hc3 as (s2 & Hc3 & Hc4). inversion Hc4 as [|? ? ? s3 ? ? Hp2 _]; subst.
    simpl in Hp, Hp2. destruct Hp as (k & es & e & Hs & He & [= ->] & ->).
    destruct Hp2 as (k2 & es2 & e2 & Hs2 & He2 & [= ->] & ->).
    destruct (refs_alive live tr1 tr0 s k es _ e s2 Hc1 Hs He Hc3 HF) as (es' & e' & Hs' & He' & Ha & Hb).
    rewrite Hs2 in Hs'. injection Hs' as -> <-.
    assert (Hcs : correct (apost T) (astate0 live) (tr0 ++ tr1) s2) by by eapply correct_join.
    destruct (decide (i = j)) as [<-|Hne]; [congruence|].
    pose proof (ashape_ok _ _ _ _ Hcs) as Hsh. rewrite /ashape Hs2 in Hsh. destruct Hsh as (_ & Hw & HFl & _ & Hby).
    destruct Hw as (_ & _ & Hap & _). rewrite Forall_lookup in HFl.
    assert (Hnij : Z.to_nat i ≠ Z.to_nat j) by lia.
    pose proof (Hap _ _ _ _ He' He2 Hnij) as Hq. rewrite /el_size (HFl _ _ He') (HFl _ _ He2) Hby Hb Ha in Hq. done.
  Qed.

  Lemma array_ref_inside : after_any_array_history T (λ live _ tr m', ∀ tr0 i p tr1,
    tr = tr0 ++ (ARef i, AOWord p) :: tr1 → Forall (λ x, ¬ is_reset x) tr1 →
    ∃ blocks b r, heap_live m' blocks ∧ live ⊆ blocks ∧ live !! b = None ∧ blocks !! b = Some r ∧
      b ≤ p ∧ p + elem_bytes T tr0 ≤ b + region_bytes r).
  Proof.
    apply ahist_any. intros live cs tr m' (s' & Hc & Hh & Hd & _) tr0 i p tr1 -> HF.
    pose proof (acorrect_live _ _ _ _ Hc) as Hlv.
    apply correct_app in Hc as (s & Hc1 & Hc2). inversion Hc2 as [|? ? ? s1 ? ? Hp Hc3]; subst.
    simpl in Hp. destruct Hp as (k & es & e & Hs & He & [= ->] & ->).
    destruct (refs_alive _ tr1 tr0 s k es _ e s' Hc1 Hs He Hc3 HF) as (es' & e' & Hs' & He' & Ha & Hb).
    assert (Hcs : correct (apost T) (astate0 (as_live s')) (tr0 ++ tr1) s') by by eapply correct_join.
    pose proof (ashape_ok _ _ _ _ Hcs) as Hsh. rewrite /ashape Hs' in Hsh. destruct Hsh as (_ & Hw & HFl & _ & Hby).
    destruct Hw as (_ & _ & _ & Hin). destruct (Hin e') as (b & r & Hbr & Hb1 & Hb2); [by eapply elem_of_list_lookup_2|].
    rewrite Forall_lookup in HFl. rewrite /el_size (HFl _ _ He') Hby Hb Ha in Hb2.
    exists (as_own s' ∪ as_live s'), b, r. split; [done|]. split; [by apply map_union_subseteq_r|].
    split; [by eapply map_disjoint_Some_l|]. split; [by apply lookup_union_Some_l|]. rewrite -Ha. split; [lia|]. rewrite Ha. exact Hb2.
  Qed.

  Lemma array_done_heap : after_any_array_history T (λ live cs tr m', ∀ tr0 a,
    tr = tr0 ++ [(ADone, a)] → cs = None ∧ heap_live m' live).
  Proof.
    apply ahist_any. intros live cs tr m' (s' & Hc & Hh & Hd & He) tr0 a ->.
    pose proof (acorrect_live _ _ _ _ Hc) as Hlv.
    apply correct_snoc_inv in Hc as (s1 & _ & Hp). simpl in Hp. destruct Hp as [_ ->]. simpl in *.
    destruct He as [-> _]. split; [done|]. rewrite left_id_L in Hh. by rewrite Hlv in Hh.
  Qed.

  Lemma array_usage : after_any_array_history T (λ live cs tr m', ∀ tr0 a,
    tr = tr0 ++ [(AUsage, a)] →
    ∃ own, heap_live m' (own ∪ live) ∧ own ##ₘ live ∧ a = AOWord (heap_bytes own)).
  Proof.
    apply ahist_any. intros live cs tr m' (s' & Hc & Hh & Hd & He) tr0 a ->.
    pose proof (acorrect_live _ _ _ _ Hc) as Hlv.
    apply correct_snoc_inv in Hc as (s1 & _ & Hp). simpl in Hp. destruct Hp as [-> ->].
    exists (as_own s1). by rewrite Hlv in Hh, Hd.
  Qed.

  Lemma array_struct : after_any_array_history T (λ live cs tr m', ∀ st, cs = Some st →
    ∃ k, inv st (Z.of_nat (length (avec tr))) k ∧ unit_size w * k = elem_bytes T tr).
  Proof.
    apply ahist_any. intros live cs tr m' (s' & Hc & Hh & Hd & He) st ->.
    pose proof (ashape_ok _ _ _ _ Hc) as Hsh. rewrite /ashape in Hsh.
    destruct (as_arr s') as [[k es]|]; [|by destruct He].
    destruct He as ((st' & [= <-] & Hinv) & _). destruct Hsh as (Hl & _ & _ & _ & Hb). rewrite Hl in Hinv. eauto.
  Qed.
End props.

(** Memory of the blocked arrays *)
Lemma arrayblk_memory : after_any_array_history arrayblk_a (λ _ cs tr _, ∀ st, cs = Some st →
  ∃ k blocks cap, elem_bytes arrayblk_a tr = k ∧
    let n := Z.of_nat (length (avec tr)) in
    n ≤ 4096 * blocks < n + 4096 ∧ 0 ≤ blocks ≤ cap ∧ (cap = 64 ∨ cap < 2 * blocks) ∧
    arrayblk_memory_usage st = 8 * cap + k * 4096 * blocks).
Proof.
  eapply after_mono; [|apply (array_struct arrayblk_a arrayblk_inv (@arrayblk_ok))].
  intros live cs tr m' H st Hst. destruct (H st Hst) as (k & (_ & blocks & cap & H1 & H2 & H3 & H4) & Hk).
  exists 8, blocks, cap. split; [done|]. done.
Qed.
Lemma arrayblkof_memory : after_any_array_history arrayblkof_a (λ _ cs tr _, ∀ st, cs = Some st →
  ∃ k blocks cap, elem_bytes arrayblkof_a tr = k ∧
    let n := Z.of_nat (length (avec tr)) in
    n ≤ 4096 * blocks < n + 4096 ∧ 0 ≤ blocks ≤ cap ∧ (cap = 64 ∨ cap < 2 * blocks) ∧
    arrayblkof_memory_usage st = 8 * cap + k * 4096 * blocks).
Proof.
  eapply after_mono; [|apply (array_struct arrayblkof_a arrayblkof_inv (@arrayblkof_ok))].
  intros live cs tr m' H st Hst. destruct (H st Hst) as (k & (_ & _ & blocks & cap & H1 & H2 & H3 & H4) & Hk).
  exists k, blocks, cap. rewrite -Hk. split; [simpl; lia|]. done.
Qed.
