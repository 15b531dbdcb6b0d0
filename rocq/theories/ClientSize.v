(** * The client's nodes fit in the address space. *)
From Verif Require Export ClientProof.
Global Open Scope Z_scope.

Lemma node_cells_nodup nw p : NoDup (node_cells nw p).
Proof.
  rewrite /node_cells. apply NoDup_fmap_2_strong; [|apply NoDup_seq]. intros x y _ _ H. lia.
Qed.

Lemma client_size_words nw om others m :
  client_ok nw om others m → Z.of_nat (size om) * Z.of_nat nw < 2 ^ 61.
Proof.
  intros (Hn & Hnd & _). apply NoDup_app in Hnd as (_ & _ & Hnd).
  pose (cells := po ← map_to_list om; node_cells nw po.1).
  assert (Hgen : ∀ l : list (Z * (Z * nat)), (∀ po, po ∈ l → node_cells nw po.1 ⊆ obj_cells po.2) →
    NoDup (l ≫= λ po, obj_cells po.2) →
    NoDup (l ≫= λ po, node_cells nw po.1) ∧ length (l ≫= λ po, node_cells nw po.1) = (length l * nw)%nat).
  { clear. induction l as [|po l IH]; intros Hs Hnd; [split; [constructor|done]|]. rewrite !bind_cons in Hnd |- *.
    apply NoDup_app in Hnd as (_ & Hd & Hnd). destruct IH as [IH1 IH2]; [intros; apply Hs; by right|done|].
    split.
    - apply NoDup_app. split; [apply node_cells_nodup|]. split; [|done]. intros a Ha Hb.
      apply (Hd a); [apply (Hs po); [by left|done]|]. apply elem_of_list_bind in Hb as (po' & Hb & Hin).
      apply elem_of_list_bind. exists po'. split; [|done]. apply (Hs po'); [by right|done].
    - rewrite app_length IH2 /node_cells fmap_length seq_length /=. lia. }
  destruct (Hgen (map_to_list om)) as [H1 H2].
  { intros [p o] Hin%elem_of_map_to_list. apply (Hn _ _ Hin). }
  { exact Hnd. }
  rewrite -Nat2Z.inj_mul. change (size om) with (length (map_to_list om)). rewrite -H2. apply aligned_length; [done|].
  apply Forall_forall. intros a ([p o] & Ha & Hin%elem_of_map_to_list)%elem_of_list_bind.
  destruct (Hn _ _ Hin) as (Hp & Hal & Hb & _). simpl in Ha. rewrite /node_cells in Ha.
  apply elem_of_list_fmap in Ha as (i & -> & [_ Hi]%elem_of_seq). split; [lia|]. split; [|lia]. rewrite (Z.mul_comm 8) Z.mod_add; lia.
Qed.
