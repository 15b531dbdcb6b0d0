(** * The allocator: configurations that do not fit, concrete clients *)
From Verif Require Export AllocHist ExamplesArray.
Global Open Scope Z_scope.

(** ** Where the first block is *)
Lemma carve_ok fuel bs data size fb m p m' :
  1 ≤ bs ≤ size → size < 2 ^ 64 → 0 ≤ data → data + size - bs < 2 ^ 64 →
  allocator_carve fuel bs data size fb m = Ok p m' → p = data + bs * (size / bs - 1).
Proof.
  revert data size fb m. induction fuel as [|fuel IH]; intros data size fb m Hb Hs Hd Hw; [done|]. simpl.
  unfold mbind, M_bind. destruct (store data fb m) as [[] m1| | |]; try done.
  assert (Hsub : sub64 size bs = size - bs) by (apply Z.mod_small; lia). rewrite Hsub.
  assert (Hq : (size - bs) / bs = size / bs - 1).
  { replace (size - bs) with (size + (-1) * bs) by ring. rewrite Z.div_add; lia. }
  destruct (decide (size - bs >= bs)).
  - assert (Hpa : ptr_add data bs = data + bs) by (apply Z.mod_small; lia). rewrite Hpa.
    intros Hc. apply IH in Hc; [|lia..]. rewrite Hc Hq. ring.
  - intros [= <- _]. assert (size / bs = 1) as ->; [|lia]. symmetry. apply Z.div_unique with (size - bs); lia.
Qed.

(** The first block that a fresh allocator returns is the last of its segment;
    it is inside the segment exactly if the configuration fits there. *)
Lemma alloc_first bs al m p t' m' :
  16 ≤ bs → (al < 8 ∨ al mod 8 = 0) → 8 + real_align al + real_size bs al < 2 ^ 64 →
  allocator_alloc (allocator_init bs al) m = Ok (p, t') m' →
  let a := al_used_segment t' in
  p + real_size bs al <= a + segment_size (real_size bs al) (real_align al) ↔ fits_at (real_size bs al) (real_align al) a.
Proof.
  intros Hb Ha Hm. pose proof (real_size_facts bs al ltac:(lia) Ha Hm) as (H1 & H2 & H3 & H4 & H5 & H6 & H7).
  set (t := allocator_init bs al) in *. set (k := real_align al) in *. set (n := real_size bs al) in *.
  assert (Hf : al_free_block t = 0) by done.
  unfold allocator_alloc. rewrite Hf. change (decide (0 = null)) with (decide (null = null)).
  destruct (decide (null = null)) as [_|Hne]; [|by destruct Hne]. unfold allocator_refill, mbind, M_bind. rewrite H1 H2.
  assert (Hw : add64 (add64 8 k) n = 8 + k + n).
  { rewrite /add64 (Z.mod_small (8 + k)); [|lia]. apply Z.mod_small. lia. }
  rewrite Hw.
  assert (Hsz : (if decide (ALLOCATOR_BLOCK_SIZE < 8 + k + n) then 8 + k + n else ALLOCATOR_BLOCK_SIZE) = segment_size n k).
  { rewrite /segment_size /ALLOCATOR_BLOCK_SIZE. destruct (decide _); lia. }
  rewrite Hsz.
  destruct (malloc (segment_size n k) m) as [a m1| | |] eqn:Hma; try done.
  assert (Hreg : 0 < a ∧ a mod 16 = 0 ∧ a + segment_size n k < 2 ^ 64).
  { unfold malloc, alloc_region in Hma. destruct (m !! HCTL) as [[| | | |h]|]; try done.
    destruct (decide (fresh_ok _ _ _ _)) as [(F1 & F2 & F3 & _)|]; [|done]. injection Hma as <- _. split; [done|]. split; [done|].
    assert (H8 : segment_size n k mod 8 = 0).
    { rewrite /segment_size. destruct (Z.max_spec 4032 (8 + k + n)) as [[_ ->]|[_ ->]]; [|done]. Z.div_mod_to_equations. lia. }
    assert (0 ≤ segment_size n k) by (rewrite /segment_size; lia).
    simpl in F3. rewrite Z2Nat.id in F3; [|by apply Z.div_pos]. Z.div_mod_to_equations. lia. }
  destruct (store a (al_used_segment t) m1) as [[] m2| | |]; try done.
  destruct Hreg as (Ha0 & Ha16 & Ha64).
  assert (Hsn : 8 + k + n ≤ segment_size n k ∧ 4032 ≤ segment_size n k) by (rewrite /segment_size; lia).
  assert (Hpa : ptr_add a 8 = a + 8) by (apply Z.mod_small; lia). rewrite Hpa.
  assert (Hmis : 0 ≤ (a + 8) mod k < k) by (apply Z.mod_pos_bound; lia).
  assert (Hpad : padding k a = if decide ((a + 8) mod k ≠ 0) then k - (a + 8) mod k else 0).
  { rewrite /padding. destruct (decide ((a + 8) mod k ≠ 0)) as [Hne|Hne].
    - apply Z.mod_opp_l_nz; [lia|done].
    - apply Z.mod_opp_l_z; lia. }
  assert (Hpr : 0 ≤ padding k a < k) by (apply Z.mod_pos_bound; lia).
  set (S := segment_size n k) in *. set (pad := padding k a) in *.
  assert (E1 : (if decide ((a + 8) mod k ≠ 0) then sub64 S (sub64 k ((a + 8) mod k)) else S) = S - pad).
  { rewrite Hpad. destruct (decide ((a + 8) mod k ≠ 0)); [|lia]. rewrite /sub64 (Z.mod_small (k - _)); [|lia]. apply Z.mod_small. lia. }
  assert (E2 : (if decide ((a + 8) mod k ≠ 0) then ptr_add (a + 8) (sub64 k ((a + 8) mod k)) else a + 8) = a + 8 + pad).
  { rewrite Hpad. destruct (decide ((a + 8) mod k ≠ 0)); [|lia]. rewrite /sub64 (Z.mod_small (k - _)); [|lia]. apply Z.mod_small. lia. }
  rewrite E1 E2.
  destruct (allocator_carve (Z.to_nat (S - pad)) n (a + 8 + pad) (S - pad) (al_free_block t) m2) as [fb m3| | |] eqn:Hc; try done.
  apply carve_ok in Hc; [|lia..]. simpl.
  destruct (load fb m3) as [nx m4| | |]; try done. intros [= <- <- _]. simpl. rewrite Hc /fits_at.
  fold S pad. pose proof (Z.div_mod (S - pad) n ltac:(lia)). lia.
Qed.

(** ** Block size 0: the loop of alloc never ends *)
Lemma carve_zero_diverges fuel data size fb m : 0 ≤ data < 2 ^ 64 → 0 ≤ size < 2 ^ 64 →
  ∀ p m', allocator_carve fuel 0 data size fb m ≠ Ok p m'.
Proof.
  revert fb m. induction fuel as [|fuel IH]; intros fb m Hd Hs p m'; [done|]. simpl. unfold mbind, M_bind.
  destruct (store data fb m) as [[] m1| | |]; try done.
  assert (sub64 size 0 = size) as -> by (rewrite /sub64 Z.sub_0_r Z.mod_small //).
  assert (ptr_add data 0 = data) as -> by (rewrite /ptr_add /wrap Z.add_0_r Z.mod_small //).
  destruct (decide (size >= 0)); [|lia]. by apply IH.
Qed.

(** ** Concrete clients *)

(** Blocks of 40 bytes with the default alignment: five allocations, two frees,
    reuse, writes and reads, memory usage, a second life with big aligned
    blocks. *)
Definition exp_client : prog pop pout :=
  Do (PInit 40 0) (fun _ => Do PAlloc (fun a => match a with
  | POWord p => Do (PWrite (p + 32) 5) (fun _ => Do PAlloc (fun b => match b with
    | POWord q => Do (PWrite q 6) (fun _ => Do (PRead (p + 32)) (fun _ => Do PUsage (fun _ => Do (PFree p) (fun _ =>
        Do (PRead q) (fun _ => Do PUsage (fun _ => Do PAlloc (fun _ => Do PDone (fun _ =>
        Do (PInit 5000 4096) (fun _ => Do PAlloc (fun _ => Do PAlloc (fun _ => Do PUsage (fun _ => Do PDone (fun _ => Done)))))))))))))
    | _ => Done end))
  | _ => Done end)).

Lemma big_fits : config_fits 8192 4096.
Proof.
  intros a Ha H16. rewrite /fits_at /segment_size Z.max_r; [|lia].
  assert (Hp : padding 4096 a mod 16 = 8) by (rewrite /padding; Z.div_mod_to_equations; lia).
  assert (Hr : 0 <= padding 4096 a < 4096) by (by apply Z.mod_pos_bound).
  replace (8 + 4096 + 8192 - padding 4096 a) with (4104 - padding 4096 a + 1 * 8192) by ring.
  rewrite Z.mod_add // Z.mod_small; [|lia]. Z.div_mod_to_equations. lia.
Qed.

Lemma exp_allowed : allowed ppre ppost (pstate0 exa_live) exp_client.
Proof.
  unfold exp_client. cbn [allowed]. split.
  { simpl. split; [done|]. split; [lia|]. split; [lia|]. split; [done|].
    apply fits_align8; [done|done|]. by right. }
  intros _ _ (_ & ->). change (real_size 40 0) with 40. change (real_align 0) with 8. cbn [ps_live pstate0].
  split; [by eexists|]. intros ? ? (bs & al & p & vs & own & [= <- <-] & -> & _ & -> & Hwf & _).
  cbn [ps_cfg ps_blocks ps_freed ps_own ps_live] in *. rewrite insert_empty in Hwf |- *.
  assert (Hlen : length vs = 5%nat).
  { destruct Hwf as (_ & _ & Hwf & _). destruct (Hwf p vs) as (_ & _ & Hl & _); [apply lookup_singleton|]. lia. }
  cbn [allowed]. split. { exists p, vs, 4%nat. split; [apply lookup_singleton|]. split; [done|lia]. }
  intros ? ? (b & ws & j & Hb & Hp & Hj & -> & ->). cbn [ps_cfg ps_blocks ps_freed ps_own ps_live] in *.
  apply lookup_singleton_Some in Hb as [<- <-]. assert (j = 4%nat) as -> by lia. rewrite insert_singleton. clear Hp Hj.
  split; [by eexists|]. intros ? ? (bs & al & q & ws & own' & [= <- <-] & -> & Hq & -> & Hwf' & _).
  cbn [ps_cfg ps_blocks ps_freed ps_own ps_live] in *. apply lookup_singleton_None in Hq.
  assert (Hlen' : length ws = 5%nat).
  { destruct Hwf' as (_ & _ & Hwf' & _). destruct (Hwf' q ws) as (_ & _ & Hl & _); [apply lookup_insert|]. lia. }
  assert (Hap : apart q 40 p 40).
  { destruct Hwf' as (_ & _ & _ & Hwf'). eapply (Hwf' q p ws); [apply lookup_insert| |done].
    rewrite lookup_insert_ne //. apply lookup_singleton. }
  cbn [allowed]. split. { exists q, ws, 0%nat. split; [apply lookup_insert|]. split; lia. }
  intros ? ? (b & xs & j & Hb & Hp & Hj & -> & ->). cbn [ps_cfg ps_blocks ps_freed ps_own ps_live] in *.
  assert (b = q ∧ j = 0%nat ∧ xs = ws) as (-> & -> & ->).
  { apply lookup_insert_Some in Hb as [[<- <-]|[_ Hb]]; [split; [done|]; split; [lia|done]|].
    apply lookup_singleton_Some in Hb as [<- <-]. rewrite insert_length in Hj. destruct Hap; lia. }
  rewrite insert_insert. clear Hb Hp Hj.
  split.
  { exists p, (<[4%nat := Some 5]> vs), 4%nat, 5. split; [rewrite lookup_insert_ne //; apply lookup_singleton|]. split; [done|].
    apply list_lookup_insert. lia. }
  intros ? ? (_ & _ & _ & _ & _ & _ & _ & _ & ->).
  split; [by eexists|]. intros ? ? (_ & _ & _ & _ & ->).
  split. { eexists. rewrite lookup_insert_ne //; apply lookup_singleton. }
  intros ? ? (_ & ->). cbn [ps_cfg ps_blocks ps_freed ps_own ps_live].
  rewrite delete_insert_ne // delete_singleton insert_empty.
  split. { exists q, (<[0%nat := Some 6]> ws), 0%nat, 6. split; [apply lookup_singleton|]. split; [lia|]. apply list_lookup_insert. lia. }
  intros ? ? (_ & _ & _ & _ & _ & _ & _ & _ & ->).
  split; [by eexists|]. intros ? ? (_ & _ & _ & _ & ->).
  split; [by eexists|]. intros ? ? (? & ? & ? & ? & ? & _ & _ & _ & -> & _).
  split; [by eexists|]. intros ? ? (_ & ->). cbn [ps_cfg ps_blocks ps_freed ps_own ps_live].
  split. { simpl. split; [done|]. split; [lia|]. split; [by right|]. split; [done|]. exact big_fits. }
  intros ? ? (_ & ->).
  split; [by eexists|]. intros ? ? (? & ? & ? & ? & ? & _ & _ & _ & -> & _).
  split; [by eexists|]. intros ? ? (? & ? & ? & ? & ? & _ & _ & _ & -> & _).
  split; [by eexists|]. intros ? ? (_ & _ & _ & _ & ->).
  split; [by eexists|]. done.
Qed.

Definition exp_answers (c : prog pop pout) : option (list Z * bool) :=
  match run pstep None c exa_m with
  | Ok r m' => Some (omap (fun a => match a with POWord z => Some z | _ => None end) r.2.*2, bool_decide (m' !! 65536 = None))
  | _ => None
  end.
Lemma exp_run : exp_answers exp_client =
  Some ([69504; 69464; 5; 80; 6; 40; 69504; 135168; 200704; 16384], true).
Proof. vm_compute. done. Qed.

(** Blocks of 2000 bytes: two in a segment.  The third is in a second segment,
    which is not requested earlier. *)
Definition exs_client : prog pop pout :=
  Do (PInit 2000 0) (fun _ => Do PAlloc (fun _ => Do PAlloc (fun _ => Do PAlloc (fun _ => Done)))).
Lemma exs_allowed : allowed ppre ppost (pstate0 exa_live) exs_client.
Proof.
  unfold exs_client. cbn [allowed]. split.
  { simpl. split; [done|]. split; [lia|]. split; [lia|]. split; [done|].
    apply fits_align8; [done|done|]. by right. }
  intros _ _ (_ & ->). change (real_size 2000 0) with 2000. change (real_align 0) with 8. cbn [ps_live pstate0].
  split; [by eexists|]. intros ? ? (? & ? & ? & ? & ? & _ & _ & _ & -> & _).
  split; [by eexists|]. intros ? ? (? & ? & ? & ? & ? & _ & _ & _ & -> & _).
  split; [by eexists|]. done.
Qed.
Definition exs_transcript : list (pop * pout) :=
  [(PInit 2000 0, PONone); (PAlloc, POWord 67544); (PAlloc, POWord 65544); (PAlloc, POWord 133080)].
Lemma exs_run : match run pstep None exs_client exa_m with Ok r _ => r.2 = exs_transcript | _ => False end.
Proof. vm_compute. done. Qed.
Lemma exs_peak : config exs_transcript = (2000, 8) /\ peak exs_transcript = 3 /\ (segment_size 2000 8 - 8) / 2000 = 2.
Proof. vm_compute. done. Qed.

(** ** Configurations that do not fit *)

(** The client has a word just after the first segment. *)
Definition exo_live : gmap Z region := {[ 69568 := RWords 1 ]}.
Definition exo_m : mem :=
  <[HCTL := Ctl (HeapCtl exo_live (fun n => 65536 * (Z.of_nat n + 1)) 0)]> {[ 69568 := W 42 ]}.
Lemma exo_heap : heap_live exo_m exo_live.
Proof. eexists. split; [apply lookup_insert|done]. Qed.

(** Blocks of 64 bytes, default alignment, written in full. *)
Definition exo_fill (bs al : Z) (ws : list Z) : M Z :=
  '(p, _) ← allocator_alloc (allocator_init bs al);
  foldr (fun i k => store (p + 8 * i) 7;; k) (mret p) ws.
Definition exo_result (bs al : Z) (ws : list Z) : option (Z * option Z) :=
  match exo_fill bs al ws exo_m with
  | Ok p m' => Some (p, match m' !! 69568 with Some (W z) => Some z | _ => None end)
  | _ => None
  end.
Lemma exo_run16 : exo_result 16 0 [0; 1] = Some (69560, Some 7).
Proof. vm_compute. done. Qed.
Lemma exo_run64 : exo_result 64 0 [0; 1; 2; 3; 4; 5; 6; 7] = Some (69512, Some 7).
Proof. vm_compute. done. Qed.
(** With blocks of 8 bytes alloc itself overwrites the word. *)
Lemma exo_run8 : exo_result 8 0 [] = Some (69568, Some 69560).
Proof. vm_compute. done. Qed.

(** The claim that the block returned is inside the segment, for every
    configuration. *)
Lemma alloc_inside_refuted : ~ (forall bs al m p t' m',
  1 <= bs -> (al < 8 \/ al mod 8 = 0) -> 8 + real_align al + real_size bs al < 2 ^ 64 ->
  allocator_alloc (allocator_init bs al) m = Ok (p, t') m' ->
  p + bs <= al_used_segment t' + segment_size (real_size bs al) (real_align al)).
Proof.
  intros H. destruct (allocator_alloc (allocator_init 64 8) exo_m) as [[p t'] m'| | |] eqn:E.
  - assert (Hb : match allocator_alloc (allocator_init 64 8) exo_m with
      | Ok (p, t') _ => bool_decide (al_used_segment t' + segment_size 64 8 < p + 64) | _ => false end = true) by (vm_compute; exact eq_refl).
    rewrite E in Hb. apply bool_decide_eq_true in Hb.
    specialize (H 64 8 _ _ _ _ ltac:(lia) ltac:(by right) eq_refl E). change (real_size 64 8) with 64 in H. change (real_align 8) with 8 in H. lia.
  - assert (Hb : match allocator_alloc (allocator_init 64 8) exo_m with Ok _ _ => true | _ => false end = true) by (vm_compute; exact eq_refl).
    by rewrite E in Hb.
  - assert (Hb : match allocator_alloc (allocator_init 64 8) exo_m with Ok _ _ => true | _ => false end = true) by (vm_compute; exact eq_refl).
    by rewrite E in Hb.
  - assert (Hb : match allocator_alloc (allocator_init 64 8) exo_m with Ok _ _ => true | _ => false end = true) by (vm_compute; exact eq_refl).
    by rewrite E in Hb.
Qed.
