(** * Property C68: where the pointers of the segmented containers point. *)
From Verif Require Import Pointers.
Global Open Scope Z_scope.

(** The pointers kept in the vector of segments need not point into a live block
    or just past its end: from the second segment on the code stores
    [&segment[-max]].  With an array of 65 elements (a client of [AInit] and
    [AGrow] whose preconditions hold) entry 6 is 512 bytes below its block. *)
Theorem C68_array_segments_in_blocks_refuted : ~ after_any_array_history array_a (fun _ cs _ m' =>
  forall st, cs = Some st -> segments_in_blocks (ar_bucket st) m').
Proof. exact array_pointers_refuted. Qed.
Print Assumptions C68_array_segments_in_blocks_refuted.
Theorem C68_arrayof_segments_in_blocks_refuted : ~ after_any_array_history arrayof_a (fun _ cs _ m' =>
  forall st, cs = Some st -> segments_in_blocks (ao_bucket st) m').
Proof. exact arrayof_pointers_refuted. Qed.
Print Assumptions C68_arrayof_segments_in_blocks_refuted.
Theorem C68_hashlin_segments_in_blocks_refuted : ~ after_any_history hashlin_table (fun _ _ cs _ m' =>
  forall st, cs = Some st -> segments_in_blocks (hl_bucket st) m').
Proof. exact hashlin_pointers_refuted. Qed.
Print Assumptions C68_hashlin_segments_in_blocks_refuted.

(** What holds: the pointers handed out to the client point to an element wholly
    inside a live block.  (Missing: the pointers kept, see above.) *)
Theorem C68_array_ref_in_block_partial : after_any_array_history array_a (fun _ _ tr m' =>
  forall tr0 i p tr1, tr = tr0 ++ (ARef i, AOWord p) :: tr1 -> Forall (fun x => ~ is_reset x) tr1 ->
  in_block m' p /\ in_block m' (p + elem_bytes array_a tr0)).
Proof. exact array_ref_in_block. Qed.
Print Assumptions C68_array_ref_in_block_partial.
Theorem C68_arrayof_ref_in_block_partial : after_any_array_history arrayof_a (fun _ _ tr m' =>
  forall tr0 i p tr1, tr = tr0 ++ (ARef i, AOWord p) :: tr1 -> Forall (fun x => ~ is_reset x) tr1 ->
  in_block m' p /\ in_block m' (p + elem_bytes arrayof_a tr0)).
Proof. exact arrayof_ref_in_block. Qed.
Print Assumptions C68_arrayof_ref_in_block_partial.

(** A first segment alone is in its block, so [segments_in_blocks] is not false
    of every vector. *)
Example C68_small_example : match run (astep array_a) None (prog_of_list [AInit 8; AGrow 64]) exa_m with
  | Ok (Some st, _) m' => segments_in_blocks (ar_bucket st) m' | _ => False end.
Proof. exact ptr_small. Qed.
Example C68_client_example : allowed (apre array_a) (apost array_a) (astate0 exa_live) ptr_client.
Proof. exact (ptr_allowed array_a exa_live ltac:(simpl; lia)). Qed.
