(** * Memories whose malloc fails at a chosen call. *)
From Verif Require Export Requests ExamplesTable ExamplesArray ExamplesAlloc.
Global Open Scope Z_scope.

(** malloc succeeds [k] times. *)
Definition poor (k : nat) (m : mem) : mem :=
  match m !! HCTL with
  | Some (Ctl h) => <[HCTL := Ctl (HeapCtl (hc_live h) (fun n => if decide (n < k)%nat then hc_oracle h n else 0) (hc_next h))]> m
  | _ => m
  end.
Definition refused {A} (r : res A) : option Z := match r with Env n => Some n | _ => None end.

Lemma poor_start k om K t live m : table_start om K t live m → table_start om K t live (poor k m).
Proof.
  intros ((H1 & Hnd & Hc) & Ht & (h & Hh & Hl) & HK & Hs). rewrite /poor Hh.
  assert (HCTL ∉ t :: objs_cells om) as Hni by (by apply NoDup_cons in Hnd as [? _]).
  split; [split; [done|split; [done|]]|split; [|split]].
  - intros a Ha. rewrite lookup_insert_ne; [by apply Hc|]. set_solver.
  - rewrite lookup_insert_ne; [done|]. set_solver.
  - eexists. split; [apply lookup_insert|done].
  - split; [|done]. apply map_subseteq_spec. intros a c Ha. rewrite lookup_insert_ne.
    + by apply (lookup_weaken _ _ _ _ Ha).
    + intros <-. rewrite Hs in Ha; [done|]. by left.
Qed.
Lemma poor_heap k m live : heap_live m live → heap_live (poor k m) live.
Proof. intros (h & Hh & Hl). rewrite /poor Hh. eexists. split; [apply lookup_insert|done]. Qed.

Lemma allowed_every {op out sst} (pre : sst → op → Prop) (post : sst → op → out → sst → Prop) (P : op → Prop) s c :
  allowed pre post s c → every P c → allowed (λ s o, pre s o ∧ P o) post s c.
Proof.
  revert s. induction c as [|o k IH]; intros s Ha He; simpl in *; [done|]. destruct Ha, He. split; [done|]. auto.
Qed.
Lemma every_list {op out} (P : op → Prop) (l : list op) : Forall P l → every P (prog_of_list l : prog op out).
Proof. induction 1; simpl; [done|]. split; [done|]. by intros _. Qed.

Definition plain (o : top) : Prop := match o with TInit n => n <= 0 | TRemove _ _ _ _ | TSearch _ _ _ _ => False | _ => True end.
Global Instance plain_dec o : Decision (plain o).
Proof. destruct o; apply _. Defined.
(** 65 insertions *)
Definition grow_client : prog top tout := burst_client (take 64 big_nodes) [] 69632.
Lemma grow_client_requests : allowed (trequest 0 big_om ∅) tpost (tstate0 big_om ∅) grow_client.
Proof.
  eapply allowed_mono; [|eapply (allowed_every _ _ plain)].
  - intros s o [Hp Hq]. split; [done|]. by destruct o.
  - apply burst_allowed; [decide_by_compute|]. intros q Hq. unfold big_om. rewrite dom_list_to_map.
    assert (HF : Forall (λ q, q ∈ (list_to_set big_objs.*1 : gset Z)) (69632 :: take 64 big_nodes ++ [])) by decide_by_compute.
    rewrite Forall_forall in HF. auto.
  - apply every_list. decide_by_compute.
Qed.
Lemma hashdyn_refused : refused (run (tstep hashdyn_table 65 big_t) None grow_client (poor 4 big_m)) = Some 2048.
Proof. vm_compute. reflexivity. Qed.
Lemma hashlin_refused : refused (run (tstep hashlin_table 65 big_t) None grow_client (poor 2 big_m)) = Some 1024.
Proof. vm_compute. reflexivity. Qed.
Lemma hashtable_refused :
  refused (run (tstep hashtable_table 0 big_t) None (prog_of_list [TInit 17]) (poor 0 big_m)) = Some 256.
Proof. vm_compute. reflexivity. Qed.

Lemma grow_requests T n : 0 ≤ n ≤ ay_max T → allowed (arequest T n 8) (apost T) (astate0 exa_live) (prog_of_list [AInit 8; AGrow n]).
Proof.
  intros Hn. split; [split; [split; [done|lia]|done]|]. intros a s' (_ & own & -> & _).
  split; [split; [split; [by eexists|lia]|done]|done].
Qed.
Lemma array_refused : refused (run (astep array_a) None (prog_of_list [AInit 8; AGrow 129]) (poor 2 exa_m)) = Some 1024.
Proof. vm_compute. reflexivity. Qed.
Lemma arrayof_refused : refused (run (astep arrayof_a) None (prog_of_list [AInit 8; AGrow 129]) (poor 2 exa_m)) = Some 1024.
Proof. vm_compute. reflexivity. Qed.
Lemma arrayblk_refused : refused (run (astep arrayblk_a) None (prog_of_list [AInit 8; AGrow 1]) (poor 1 exa_m)) = Some 32768.
Proof. vm_compute. reflexivity. Qed.
Lemma alloc_refused : refused (run pstep None (prog_of_list [PInit 5000 64; PAlloc]) (poor 0 exa_m)) = Some 5128.
Proof. vm_compute. reflexivity. Qed.
Lemma alloc_requests_example : every (prequest 5128) (prog_of_list [PInit 5000 64; PAlloc] : prog pop pout) ∧
  refused (run pstep None (prog_of_list [PInit 5000 64; PAlloc]) (poor 0 exa_m)) = Some 5128.
Proof. split; [|exact alloc_refused]. repeat split; vm_compute; done. Qed.
Lemma array_client_requests k n : 0 ≤ n < 2 ^ 32 → heap_live (poor k exa_m) exa_live ∧
  allowed (arequest array_a n 8) (apost array_a) (astate0 exa_live) (prog_of_list [AInit 8; AGrow n]).
Proof. intros Hn. split; [apply poor_heap, exa_heap|]. apply grow_requests. simpl. lia. Qed.
