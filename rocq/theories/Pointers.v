(** * Where the pointers kept by the segmented containers point *)
From Verif Require Export ExamplesArray ExamplesTable.
Global Open Scope Z_scope.

(** [p] points into a live heap block or just past its end, as C asks of the
    result of pointer arithmetic. *)
Definition in_block (m : mem) (p : Z) : Prop :=
  exists live b r, heap_live m live /\ live !! b = Some r /\ b <= p <= b + region_bytes r.
(** All the entries of a vector of segments do. *)
Definition segments_in_blocks (bucket : list (option Z)) (m : mem) : Prop :=
  forall i p, bucket !! i = Some (Some p) -> in_block m p.

(** Computing that one does not *)
Definition out_of_blocks (m : mem) (p : Z) : bool :=
  match m !! HCTL with
  | Some (Ctl h) => forallb (λ br, negb (bool_decide (br.1 ≤ p ≤ br.1 + region_bytes br.2))) (map_to_list (hc_live h))
  | _ => false
  end.
Lemma out_of_blocks_ok m p : out_of_blocks m p = true → ¬ in_block m p.
Proof.
  intros Ho (live & b & r & (h & Hh & Hl) & Hb & Hin). rewrite /out_of_blocks Hh in Ho. rewrite forallb_forall in Ho.
  specialize (Ho (b, r)). rewrite Hl in Ho. apply negb_true_iff, bool_decide_eq_false in Ho; [done|].
  apply elem_of_list_In, elem_of_map_to_list. done.
Qed.
Definition entry6_out (bucket : list (option Z)) (m : mem) : bool :=
  match bucket !! 6%nat with Some (Some p) => out_of_blocks m p | _ => false end.
Lemma entry6_out_ok bucket m : entry6_out bucket m = true → ¬ segments_in_blocks bucket m.
Proof.
  unfold entry6_out. intros Ho Hs. destruct (bucket !! 6%nat) as [[p|]|] eqn:E; [|done|done].
  by eapply out_of_blocks_ok, Hs.
Qed.

(** A run that ends in a state on which [f] computes [true] refutes a claim that
    [f] denies. *)
Definition ends {S A} (f : S → mem → bool) (r : res (option S * A)) : bool :=
  match r with Ok (Some st, _) m' => f st m' | _ => false end.
Lemma ends_refute {S A} (f : S → mem → bool) (r : res (option S * A)) (P : S → mem → Prop) :
  (∀ st m, f st m = true → ¬ P st m) → ends f r = true →
  ¬ safe r (λ x m', ∀ st, x.1 = Some st → P st m').
Proof.
  intros Hf He Hs. destruct r as [[[st|] tr] m'| | |]; simpl in He; try done.
  eapply Hf; [exact He|]. by apply Hs.
Qed.

(** An array of 65 elements *)
Definition ptr_client : prog aop aout := prog_of_list [AInit 8; AGrow 65].
Lemma ptr_allowed T live : 2 ^ 32 ≤ ay_max T → allowed (apre T) (apost T) (astate0 live) ptr_client.
Proof.
  intros Hm. split; [split; [done|lia]|]. intros a s' (_ & own & -> & _). split; [split; [by eexists|lia]|done].
Qed.
Lemma ptr_array_out :
  ends (λ st m, entry6_out (ar_bucket st) m) (run (astep array_a) None ptr_client exa_m) = true.
Proof. vm_compute. reflexivity. Qed.
Lemma ptr_arrayof_out :
  ends (λ st m, entry6_out (ao_bucket st) m) (run (astep arrayof_a) None ptr_client exa_m) = true.
Proof. vm_compute. reflexivity. Qed.

Lemma array_pointers_refuted : ¬ after_any_array_history array_a (λ _ cs _ m',
  ∀ st, cs = Some st → segments_in_blocks (ar_bucket st) m').
Proof.
  intros H. specialize (H exa_live exa_m ptr_client exa_heap (ptr_allowed array_a exa_live ltac:(simpl; lia))).
  refine (ends_refute _ _ _ _ ptr_array_out H). intros st m. apply entry6_out_ok.
Qed.
Lemma arrayof_pointers_refuted : ¬ after_any_array_history arrayof_a (λ _ cs _ m',
  ∀ st, cs = Some st → segments_in_blocks (ao_bucket st) m').
Proof.
  intros H. specialize (H exa_live exa_m ptr_client exa_heap (ptr_allowed arrayof_a exa_live ltac:(simpl; lia))).
  refine (ends_refute _ _ _ _ ptr_arrayof_out H). intros st m. apply entry6_out_ok.
Qed.

(** The linear hashtable, with the client that shows C17 *)
Lemma ptr_hashlin_out :
  ends (λ st m, entry6_out (hl_bucket st) m) (run (tstep hashlin_table 65 big_t) None big_client big_m) = true.
Proof. vm_compute. reflexivity. Qed.
Lemma hashlin_pointers_refuted : ¬ after_any_history hashlin_table (λ _ _ cs _ m',
  ∀ st, cs = Some st → segments_in_blocks (hl_bucket st) m').
Proof.
  intros H. specialize (H big_om ∅ big_t ∅ big_m 65%nat big_client big_start ltac:(by rewrite big_size) big_allowed).
  refine (ends_refute _ _ _ _ ptr_hashlin_out H). intros st m. apply entry6_out_ok.
Qed.

Lemma elem_bytes_nonneg T tr : 0 ≤ elem_bytes T tr.
Proof.
  unfold elem_bytes. destruct (ay_words T); [lia|].
  assert (H : ∀ z, 0 ≤ z → 0 ≤ foldl (λ z (x : aop * aout), match x.1 with AInit k => Z.max 0 k | _ => z end) z tr); [|by apply H].
  induction tr as [|[o a] tr IH]; intros z Hz; [done|]. simpl. apply IH. destruct o; simpl; lia.
Qed.
(** The references handed out do point into blocks. *)
Lemma ref_in_block T inv (Hp : ∀ `{!memG}, memG_env → array_proof T inv) : after_any_array_history T (λ _ _ tr m',
  ∀ tr0 i p tr1, tr = tr0 ++ (ARef i, AOWord p) :: tr1 → Forall (λ x, ¬ is_reset x) tr1 →
  in_block m' p ∧ in_block m' (p + elem_bytes T tr0)).
Proof.
  intros live m c Hl Ha. eapply safe_mono; [exact (array_ref_inside T inv (@Hp) live m c Hl Ha)|].
  intros r m' H tr0 i p tr1 Htr HF. destruct (H tr0 i p tr1 Htr HF) as (bl & b & rg & Hh & _ & _ & Hb & Hlo & Hhi).
  pose proof (elem_bytes_nonneg T tr0).
  split; exists bl, b, rg; (split; [done|]); (split; [done|]); lia.
Qed.
Lemma array_ref_in_block : after_any_array_history array_a (λ _ _ tr m',
  ∀ tr0 i p tr1, tr = tr0 ++ (ARef i, AOWord p) :: tr1 → Forall (λ x, ¬ is_reset x) tr1 →
  in_block m' p ∧ in_block m' (p + elem_bytes array_a tr0)).
Proof. exact (ref_in_block array_a array_inv (@array_ok)). Qed.
Lemma arrayof_ref_in_block : after_any_array_history arrayof_a (λ _ _ tr m',
  ∀ tr0 i p tr1, tr = tr0 ++ (ARef i, AOWord p) :: tr1 → Forall (λ x, ¬ is_reset x) tr1 →
  in_block m' p ∧ in_block m' (p + elem_bytes arrayof_a tr0)).
Proof. exact (ref_in_block arrayof_a arrayof_inv (@arrayof_ok)). Qed.

(** A vector of one segment *)
Definition entries_in (bucket : list (option Z)) (m : mem) : bool :=
  match m !! HCTL with
  | Some (Ctl h) => forallb (λ e, match e with
      | Some p => existsb (λ br, bool_decide (br.1 ≤ p ≤ br.1 + region_bytes br.2)) (map_to_list (hc_live h))
      | None => true end) bucket
  | _ => false
  end.
Lemma entries_in_ok bucket m : entries_in bucket m = true → segments_in_blocks bucket m.
Proof.
  unfold entries_in. intros H i p Hi. destruct (m !! HCTL) as [[| | | |h]|] eqn:E; try done.
  rewrite forallb_forall in H. specialize (H (Some p)). simpl in H.
  rewrite existsb_exists in H. destruct H as ([b r] & Hin & Hb). { apply elem_of_list_In. by eapply elem_of_list_lookup_2. }
  apply bool_decide_eq_true in Hb. exists (hc_live h), b, r.
  split; [by exists h|]. split; [|done]. apply elem_of_map_to_list. by apply elem_of_list_In.
Qed.
Lemma ends_ok {S A} (f : S → mem → bool) (r : res (option S * A)) (P : S → mem → Prop) :
  (∀ st m, f st m = true → P st m) → ends f r = true → match r with Ok (Some st, _) m' => P st m' | _ => False end.
Proof. intros Hf. destruct r as [[[st|] tr] m'| | |]; simpl; try done. apply Hf. Qed.
Lemma ptr_small : match run (astep array_a) None (prog_of_list [AInit 8; AGrow 64]) exa_m with
  | Ok (Some st, _) m' => segments_in_blocks (ar_bucket st) m' | _ => False end.
Proof.
  refine (@ends_ok (ay_st array_a) _ (λ st m, entries_in (ar_bucket st) m)
    (run (astep array_a) None (prog_of_list [AInit 8; AGrow 64]) exa_m) (λ st m, segments_in_blocks (ar_bucket st) m) _ _).
  - intros st m. apply entries_in_ok.
  - vm_compute. reflexivity.
Qed.
