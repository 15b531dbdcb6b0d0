(** * Concrete memories and clients of the arrays *)
From Verif Require Export ArrayProps.
Global Open Scope Z_scope.

(** One block of the client is live; malloc returns 65536, 131072, ... *)
Definition exa_live : gmap Z region := {[ 4096 := RWords 6 ]}.
Definition exa_m : mem :=
  <[HCTL := Ctl (HeapCtl exa_live (fun n => 65536 * (Z.of_nat n + 1)) 0)]>
    (list_to_map ((fun a => (a, U)) <$> region_cells 4096 (RWords 6))).

Lemma exa_heap : heap_live exa_m exa_live.
Proof. eexists. split; [apply lookup_insert|done]. Qed.

(** A client of an array of pointers that keeps within the size, [n] if there
    is an array. *)
Fixpoint in_size (n : option Z) (ops : list aop) : bool :=
  match ops with
  | [] => true
  | o :: ops =>
      match o, n with
      | AInit k, None => bool_decide (1 <= k < 2 ^ 64) && in_size (Some 0) ops
      | AGrow k, Some n => bool_decide (0 <= k <= 2 ^ 32) && in_size (Some (Z.max n k)) ops
      | (ASize | AUsage), Some n => in_size (Some n) ops
      | (ARef i | ASet i _ | AGet i), Some n => bool_decide (0 <= i < n) && in_size (Some n) ops
      | AInsert _, Some n => in_size (Some (n + 1)) ops
      | ADone, Some _ => in_size None ops
      | _, _ => false
      end
  end.

Lemma in_size_allowed T s n ops : ay_words T = true → 2 ^ 32 ≤ ay_max T →
  match as_arr s, n with
  | None, None => True | Some (k, es), Some n => n = Z.of_nat (length es) | _, _ => False end →
  in_size n ops = true → allowed (apre T) (apost T) s (prog_of_list ops).
Proof.
  intros Hw Hmax. revert s n. induction ops as [|o ops IH]; intros s n Hs Hok; [done|].
  destruct (as_arr s) as [[k es]|] eqn:Hsa; destruct n as [n|]; try done;
    destruct o; simpl in Hok; try done; repeat (apply andb_prop in Hok as [Hc Hok]);
    try apply bool_decide_eq_true in Hc; subst; simpl.
  - split; [split; [by eexists|lia]|]. intros a s' (-> & k' & es' & news & own & Hs' & -> & [Hl _] & _).
    rewrite Hs' in Hsa. injection Hsa as -> ->. eapply IH; [|exact Hok]. simpl. rewrite app_length. lia.
  - split; [by eexists|]. intros a s' (? & ? & _ & _ & ->). eapply IH; [|exact Hok]. by rewrite Hsa.
  - split; [by eexists|]. intros a s' (_ & ->). eapply IH; [|exact Hok]. by rewrite Hsa.
  - split; [by exists k, es|]. intros a s' (? & ? & ? & _ & _ & _ & ->). eapply IH; [|exact Hok]. by rewrite Hsa.
  - split; [split; [done|by exists k, es]|]. intros a s' (es' & ? & Hs' & _ & _ & ->). rewrite Hs' in Hsa. injection Hsa as -> ->.
    eapply IH; [|exact Hok]. simpl. by rewrite insert_length.
  - split; [split; [done|by exists k, es]|]. intros a s' (? & ? & ? & ? & _ & _ & _ & ->). eapply IH; [|exact Hok]. by rewrite Hsa.
  - split; [split; [done|by eexists]|]. intros a s' (_ & es' & ? & ? & Hs' & -> & _). rewrite Hs' in Hsa. injection Hsa as -> ->.
    eapply IH; [|exact Hok]. simpl. rewrite app_length /=. lia.
  - split; [by eexists|]. intros a s' (_ & ->). eapply IH; [|exact Hok]. done.
  - split; [done|]. intros a s' (_ & own & -> & _). eapply IH; [|exact Hok]. done.
Qed.

(** The second growth is to [n] elements. *)
Definition exa_ops (n : Z) : list aop :=
  [AInit 1; AInsert 7; AGrow 70; ASet 63 5; ASet 64 6; ASet 69 8; AGet 0; AGet 1; AGet 63; AGet 64; AGet 69;
   ARef 0; ARef 64; ARef 65; AGrow 5; ASize; AUsage; AGrow n; AGet 64; AGet (n - 1); ASet (n - 104) 3; AInsert 2;
   AGet n; AGet (n - 104); ARef 0; ARef 64; ASize; AUsage; ADone].
Definition exa_client (n : Z) : prog aop aout := prog_of_list (exa_ops n).

Lemma exa_allowed : allowed (apre array_a) (apost array_a) (astate0 exa_live) (exa_client 4200).
Proof. apply (in_size_allowed _ _ None); [done|by simpl|done|by vm_compute]. Qed.
Lemma exa_allowed_blk : allowed (apre arrayblk_a) (apost arrayblk_a) (astate0 exa_live) (exa_client 4200).
Proof. apply (in_size_allowed _ _ None); [done|by simpl|done|by vm_compute]. Qed.

Definition words (l : list aout) : list Z := omap (fun a => match a with AOWord z => Some z | _ => None end) l.
Definition exa_answers (T : arrays) (c : prog aop aout) : option (list Z * bool) :=
  match run (astep T) None c exa_m with
  | Ok r m' => Some (words r.2.*2, bool_decide (m' !! 65536 = None))
  | _ => None
  end.

Lemma exa_array_run : exa_answers array_a (exa_client 300) =
  Some ([7; 0; 5; 6; 8; 65536; 131072; 131080; 70; 1024; 6; 0; 2; 3; 65536; 131072; 301; 4096], true).
Proof. vm_compute. done. Qed.
Lemma exa_arrayblk_run : exa_answers arrayblk_a (exa_client 300) =
  Some ([7; 0; 5; 6; 8; 131072; 131584; 131592; 70; 33280; 6; 0; 2; 3; 131072; 131584; 301; 33280], true).
Proof. vm_compute. done. Qed.

(** A client of an array of objects of [k] bytes: it writes the last byte of
    an element, grows the array to [n] elements and reads. *)
Definition exa_bytes (k n : Z) : prog aop aout :=
  Do (AInit k) (fun _ => Do (AGrow 70) (fun _ => Do (ARef 69) (fun a => match a with
    | AOWord p =>
        Do (AWrite (p + (k - 1)) 9) (fun _ => Do (ARead (p + (k - 1))) (fun _ => Do (ARead p) (fun _ =>
        Do (AGrow n) (fun _ => Do (ARead (p + (k - 1))) (fun _ => Do (ARef 69) (fun _ => Do (ARef (n - 1)) (fun b => match b with
          | AOWord q => Do (ARead q) (fun _ => Do ASize (fun _ => Do AUsage (fun _ => Do ADone (fun _ => Done))))
          | _ => Done end)))))))
    | _ => Done end))).

Lemma exa_bytes_allowed T k n : ay_words T = false → 1 ≤ k ≤ 4096 → 70 ≤ n ≤ 5000 → 5000 ≤ ay_max T →
  allowed (apre T) (apost T) (astate0 exa_live) (exa_bytes k n).
Proof.
  intros Hw Hk Hn Hmax. unfold exa_bytes.
  cbn [allowed]. split; [split; [done|lia]|]. intros _ _ (_ & own0 & -> & _). rewrite Hw.
  split; [split; [by eexists|lia]|]. intros _ _ (_ & k1 & es1 & news & own1 & [= <- <-] & -> & [Hl1 Hz1] & _).
  change (length (@nil elt)) with 0%nat in Hl1. rewrite app_nil_l. cbn [as_live astate0].
  split. { exists (Z.to_nat k), news. split; [done|lia]. }
  intros a s' (k2 & es2 & e & [= <- <-] & He & -> & ->).
  pose proof (proj1 (Forall_lookup _ _) Hz1 _ _ He) as Hve. cbn beta in Hve.
  assert (Hlen : length (el_vals e) = Z.to_nat k) by by rewrite Hve replicate_length.
  assert (Hcell : el_addr e + (k - 1) = el_cell (ay_words T) e (Z.to_nat (k - 1))).
  { rewrite /el_cell Hw /unit_size. lia. }
  cbn [allowed]. split.
  { exists (Z.to_nat k), news, e, (Z.to_nat (k - 1)). split; [done|]. split; [by eapply elem_of_list_lookup_2|]. split; [lia|done]. }
  intros _ s' (k3 & es3 & i & e3 & j & [= <- <-] & He3 & Hj3 & Heq & _ & ->).
  assert (Hshape : ∀ i' x, news !! i' = Some x → ∃ y, (<[i := Elt (el_addr e3) (<[j:=9]> (el_vals e3))]> news) !! i' = Some y ∧
    el_addr y = el_addr x ∧ length (el_vals y) = length (el_vals x)).
  { intros i' x Hx. destruct (decide (i = i')) as [<-|].
    - eexists. split; [apply list_lookup_insert; by eapply lookup_lt_Some|]. rewrite Hx in He3. injection He3 as ->.
      by rewrite /= insert_length.
    - exists x. by rewrite list_lookup_insert_ne. }
  destruct (Hshape _ _ He) as (y & Hy & Hya & Hyl).
  assert (Hlens : Forall (λ x, length (el_vals x) = Z.to_nat k) (<[i := Elt (el_addr e3) (<[j:=9]> (el_vals e3))]> news)).
  { apply Forall_insert.
    - eapply Forall_impl; [exact Hz1|]. intros x ->. apply replicate_length.
    - rewrite /= insert_length (proj1 (Forall_lookup _ _) Hz1 _ _ He3). apply replicate_length. }
  assert (Hl2 : length (<[i := Elt (el_addr e3) (<[j:=9]> (el_vals e3))]> news) = 70%nat) by (rewrite insert_length; lia).
  set (es := <[i := Elt (el_addr e3) (<[j:=9]> (el_vals e3))]> news) in *. clearbody es. clear Heq Hshape.
  assert (Hread : ∀ es' own j', es `prefix_of` es' → (j' < Z.to_nat k)%nat →
    apre T (AState (Some (Z.to_nat k, es')) own exa_live) (ARead (el_addr e + Z.of_nat j'))).
  { intros es' own j' Hpre Hj'. exists (Z.to_nat k), es', y, j'. split; [done|].
    split; [apply elem_of_list_lookup; exists 69%nat; by eapply prefix_lookup|]. split; [lia|].
    rewrite /el_cell Hw /unit_size Hya. lia. }
  assert (Hj1 : el_addr e + (k - 1) = el_addr e + Z.of_nat (Z.to_nat (k - 1))) by lia.
  split; [rewrite Hj1; apply Hread; [done|lia]|]. intros _ s' (? & ? & ? & ? & ? & _ & _ & _ & _ & _ & ->).
  split. { replace (el_addr e) with (el_addr e + Z.of_nat 0) by lia. apply Hread; [done|lia]. }
  intros _ s' (? & ? & ? & ? & ? & _ & _ & _ & _ & _ & ->).
  split; [split; [by eexists|lia]|]. intros _ _ (_ & k4 & es4 & news4 & own4 & [= <- <-] & -> & [Hl4 Hz4] & _). cbn [as_live].
  split; [rewrite Hj1; apply Hread; [by eexists|lia]|]. intros _ s' (? & ? & ? & ? & ? & _ & _ & _ & _ & _ & ->).
  split. { exists (Z.to_nat k), (es ++ news4). split; [done|]. rewrite app_length. lia. }
  intros _ s' (? & ? & ? & _ & _ & _ & ->).
  split. { exists (Z.to_nat k), (es ++ news4). split; [done|]. rewrite app_length. lia. }
  intros b s' (k5 & es5 & f & [= <- <-] & Hf & -> & ->).
  assert (Hlens4 : Forall (λ x, length (el_vals x) = Z.to_nat k) (es ++ news4)).
  { apply Forall_app. split; [done|]. eapply Forall_impl; [exact Hz4|]. intros ? ->. apply replicate_length. }
  cbn [allowed]. split.
  { exists (Z.to_nat k), (es ++ news4), f, 0%nat. split; [done|]. split; [by eapply elem_of_list_lookup_2|].
    rewrite (proj1 (Forall_lookup _ _) Hlens4 _ _ Hf) /el_cell. split; lia. }
  intros _ s' (? & ? & ? & ? & ? & _ & _ & _ & _ & _ & ->).
  split; [by eexists|]. intros _ s' (? & ? & _ & _ & ->).
  split; [by eexists|]. intros _ s' (_ & ->).
  split; [by eexists|]. done.
Qed.

Lemma exa_arrayof_run : exa_answers arrayof_a (exa_bytes 3 200) =
  Some ([131087; 9; 0; 9; 131087; 196821; 0; 200; 768], true).
Proof. vm_compute. done. Qed.
Lemma exa_arrayblkof_run : exa_answers arrayblkof_a (exa_bytes 1 100) =
  Some ([131141; 9; 9; 9; 131141; 131171; 0; 100; 4608], true).
Proof. vm_compute. done. Qed.
Lemma exa_arrayof_allowed : allowed (apre arrayof_a) (apost arrayof_a) (astate0 exa_live) (exa_bytes 3 200).
Proof. apply exa_bytes_allowed; simpl; try lia; done. Qed.
Lemma exa_arrayblkof_allowed : allowed (apre arrayblkof_a) (apost arrayblkof_a) (astate0 exa_live) (exa_bytes 1 5000).
Proof. apply exa_bytes_allowed; simpl; try lia; done. Qed.

(** A request close to 2^64 wraps the number of blocks to 0. *)
Lemma arrayblk_grow_wraps st n m : array_size (ab_block st) = 0 → ab_count st = 0 → 2 ^ 64 - 4095 ≤ n < 2 ^ 64 →
  arrayblk_grow st n m = Ok (ArrayBlk (ab_block st) n) m ∧
  arrayblk_size (ArrayBlk (ab_block st) n) = n ∧
  arrayblk_ref (ArrayBlk (ab_block st) n) 0 m = UB.
Proof.
  intros H0 Hc Hn. rewrite /arrayblk_grow. destruct (decide (ab_count st >= n)); [lia|].
  assert (Hb : sub64 (add64 n ARRAYBLK_SIZE) 1 / ARRAYBLK_SIZE = 0).
  { rewrite /add64 /sub64 /wrap /ARRAYBLK_SIZE.
    assert (H1 : (n + 4096) mod 2 ^ 64 = n + 4096 - 2 ^ 64) by (symmetry; apply (Z.mod_unique _ _ 1); lia).
    rewrite H1 Z.mod_small; [|lia]. apply Z.div_small. lia. }
  rewrite Hb H0. destruct (decide (0 < 0)); [lia|]. split; [done|]. split; [done|].
  rewrite /arrayblk_ref /=. rewrite bool_decide_eq_true_2; [|lia]. cbn [massert].
  rewrite /array_get /array_ref /array_size in H0 |- *. rewrite H0. done.
Qed.
Lemma init_wraps_bool (r : res arrayblk) :
  match r with Ok st _ => (array_size (ab_block st) =? 0) && (ab_count st =? 0) | _ => false end = true →
  ∃ st m, r = Ok st m ∧ array_size (ab_block st) = 0 ∧ ab_count st = 0.
Proof. destruct r as [st m| | |]; [|done..]. intros [H1 H2]%andb_true_iff. exists st, m. split; [done|]. lia. Qed.
Lemma arrayblk_init_wraps : ∃ st m, arrayblk_init exa_m = Ok st m ∧ array_size (ab_block st) = 0 ∧ ab_count st = 0.
Proof.
  apply init_wraps_bool. vm_compute. exact eq_refl.
Qed.
Lemma arrayblk_grow_refuted : ¬ (∀ st n m st' m' i,
  array_size (ab_block st) = 0 → ab_count st = 0 → 0 ≤ n < 2 ^ 64 →
  arrayblk_grow st n m = Ok st' m' → 0 ≤ i < n → arrayblk_ref st' i m' ≠ UB).
Proof.
  intros H. destruct arrayblk_init_wraps as (st & m & _ & H1 & H2).
  destruct (arrayblk_grow_wraps st (2 ^ 64 - 1) m H1 H2) as (Hg & _ & Hu); [lia|].
  exact (H st (2 ^ 64 - 1) m _ m 0 H1 H2 ltac:(lia) Hg ltac:(lia) Hu).
Qed.
