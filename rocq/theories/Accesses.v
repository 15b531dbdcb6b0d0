(** * Code that accesses its own memory only. *)
From Verif Require Export AccessSpec.
Global Open Scope Z_scope.

Section local.
  Variables (F : mem) (FL : gmap Z region).
  Notation bes := (beside F FL).

  Definition okmem (m : mem) : Prop := foreign F FL m ∧ words_aligned m.

  (** [c] alone and [c'] beside [F] and [FL]: see [accesses_own] and [same_alone]. *)
  Definition local2 {A} (c c' : M A) : Prop := ∀ m, okmem m →
    match c m with
    | UB | Fuel => True
    | _ => ∃ l, logged c' (bes m) l (c' (bes m)) ∧ Forall aligned_access l ∧ Forall (outside F) l ∧
        match c' (bes m) with
        | Ok v m2 => ∃ m', c m = Ok v m' ∧ m2 = bes m' ∧ okmem m'
        | Env _ => True
        | _ => False
        end
    end.
  Definition local {A} (c : M A) : Prop := local2 c c.

  Lemma local_ret {A} (v : A) : local (mret v).
  Proof. intros m Hm. simpl. exists []. repeat split; try constructor. by exists m. Qed.
  Lemma local_ub {A} : local (@ub A).
  Proof. done. Qed.
  Lemma local_fuel {A} : local (@fuel_out A).
  Proof. done. Qed.
  Lemma local_nomem {A} n : local (λ _, @Env A n).
  Proof. intros m Hm. simpl. exists []. repeat split; constructor. Qed.
  Lemma local_assert b : local (massert b).
  Proof.
    intros m Hm. destruct b; simpl; [|done]. exists []. split; [apply lg_assert|].
    do 2 (split; [constructor|]). by exists m.
  Qed.
  Lemma local2_bind {A B} (c c' : M A) (k k' : A → M B) :
    local2 c c' → (∀ v m m', c m = Ok v m' → local2 (k v) (k' v)) → local2 (c ≫= k) (c' ≫= k').
  Proof.
    intros Hc Hk m Hm. specialize (Hc m Hm). rewrite /mbind /M_bind.
    destruct (c m) as [v m1| |n|] eqn:E; try done.
    - destruct Hc as (l & Hl & H1 & H2 & Hr). destruct (c' (bes m)) as [v' m2| |n'|] eqn:E'; try done.
      + destruct Hr as (m' & [= <- <-] & -> & Hm1). specialize (Hk v _ _ E m1 Hm1).
        destruct (k v m1) as [w m3| |n3|] eqn:E3; try done.
        * destruct Hk as (l' & Hl' & H1' & H2' & Hr'). exists (l ++ l'). split; [by eapply lg_bind|].
          rewrite !Forall_app. done.
        * destruct Hk as (l' & Hl' & H1' & H2' & Hr'). exists (l ++ l'). split; [by eapply lg_bind|].
          rewrite !Forall_app. done.
      + assert (H : ∃ l, logged (c' ≫= k') (bes m) l (Env n') ∧ Forall aligned_access l ∧ Forall (outside F) l ∧ True)
          by (exists l; split; [by apply lg_bind_env|done]).
        by destruct (k v m1).
    - destruct Hc as (l & Hl & H1 & H2 & Hr). destruct (c' (bes m)) as [v' m2| |n'|] eqn:E'; try done.
      + by destruct Hr as (? & ? & _).
      + exists l. split; [by apply lg_bind_env|done].
  Qed.
  Lemma local_bind {A B} (c : M A) (k : A → M B) : local c → (∀ v, local (k v)) → local (c ≫= k).
  Proof. intros Hc Hk. apply local2_bind; [done|]. intros v _ _ _. apply Hk. Qed.

  Lemma bes_lookup m a c : okmem m → m !! a = Some c → bes m !! a = Some (add_blocks FL c).
  Proof.
    intros _ H. rewrite /beside. apply lookup_union_Some_l. by rewrite lookup_fmap H.
  Qed.
  Lemma ok_F m a c : okmem m → m !! a = Some c → F !! a = None.
  Proof. intros [[Hd _] _] H. by eapply map_disjoint_Some_r. Qed.
  Lemma bes_insert m a c : bes (<[a := c]> m) = <[a := add_blocks FL c]> (bes m).
  Proof. by rewrite /beside fmap_insert insert_union_l. Qed.

  Lemma local_load a : local (load a).
  Proof.
    intros m Hm. unfold load. destruct (m !! a) as [[z| | | |]|] eqn:E; try done.
    exists [AWord a]. pose proof (bes_lookup _ _ _ Hm E) as Hb. simpl in Hb.
    pose proof (lg_load a (bes m)) as Hl. unfold load in Hl at 2. rewrite Hb in Hl. rewrite Hb.
    split; [done|]. split; [|split].
    - constructor; [|done]. destruct Hm as [_ Hw]. eapply Hw; [exact E|]. right. by eexists.
    - constructor; [|done]. by eapply ok_F.
    - by exists m.
  Qed.
  Lemma local_loadb a : local (loadb a).
  Proof.
    intros m Hm. unfold loadb. destruct (m !! a) as [[| |z| |]|] eqn:E; try done.
    exists [AByte a]. pose proof (bes_lookup _ _ _ Hm E) as Hb. simpl in Hb.
    pose proof (lg_loadb a (bes m)) as Hl. unfold loadb in Hl at 2. rewrite Hb in Hl. rewrite Hb.
    split; [done|]. split; [by constructor|split].
    - constructor; [|done]. by eapply ok_F.
    - by exists m.
  Qed.
  (** A cell that is not the heap is replaced by a cell that is a word only if it was one. *)
  Lemma okmem_insert m a c0 c : okmem m → m !! a = Some c0 → (∀ h, c0 ≠ Ctl h) → (∀ h, c ≠ Ctl h) →
    (wordcell c → wordcell c0) → okmem (<[a := c]> m).
  Proof.
    intros Hm E Hc0 Hc Hw. pose proof (ok_F _ _ _ Hm E) as HF. destruct Hm as [[Hd Hh] Ha]. split; [split|].
    - by apply map_disjoint_insert_r.
    - intros h [[-> ->]|[_ H]]%lookup_insert_Some; [by destruct (Hc h)|auto].
    - intros k x [[<- <-]|[_ H]]%lookup_insert_Some Hx; [eapply Ha; [exact E|auto]|by eapply Ha].
  Qed.
  Lemma local_store a v : local (store a v).
  Proof.
    intros m Hm. unfold store.
    assert (H : ∀ c0, m !! a = Some c0 → wordcell c0 →
      ∃ l, logged (store a v) (bes m) l (store a v (bes m)) ∧ Forall aligned_access l ∧ Forall (outside F) l ∧
        match store a v (bes m) with
        | Ok u m2 => ∃ m', Ok tt (<[a := W v]> m) = Ok u m' ∧ m2 = bes m' ∧ okmem m'
        | Env _ => True | _ => False end).
    { intros c0 E Hc0. exists [AWord a]. pose proof (bes_lookup _ _ _ Hm E) as Hb.
      split; [apply lg_store|]. split; [|split].
      - constructor; [|done]. destruct Hm as [_ Hw]. by eapply Hw.
      - constructor; [|done]. by eapply ok_F.
      - assert (Hs : store a v (bes m) = Ok tt (<[a := W v]> (bes m))).
        { unfold store. rewrite Hb. by destruct Hc0 as [->|[z ->]]. }
        rewrite Hs. exists (<[a := W v]> m). rewrite bes_insert. split; [done|]. split; [done|].
        eapply okmem_insert; [done|exact E| |done|done]. by destruct Hc0 as [->|[z ->]]. }
    destruct (m !! a) as [[z| | | |]|] eqn:E; try done; eapply H; try done; [right; by eexists|by left].
  Qed.
  Lemma local_storeb a v : local (storeb a v).
  Proof.
    intros m Hm. unfold storeb. destruct (m !! a) as [[| |z| |]|] eqn:E; try done.
    exists [AByte a]. pose proof (bes_lookup _ _ _ Hm E) as Hb. simpl in Hb.
    pose proof (lg_storeb a v (bes m)) as Hl. unfold storeb in Hl at 2. rewrite Hb in Hl. rewrite Hb.
    split; [done|]. split; [by constructor|split].
    - constructor; [|done]. by eapply ok_F.
    - exists (<[a := B v]> m). rewrite bes_insert. split; [done|]. split; [done|].
      eapply okmem_insert; [done|exact E|done|done|]. by intros [?|[??]].
  Qed.
  Lemma local_push a v : local (tape_push a v).
  Proof.
    intros m Hm. unfold tape_push. destruct (m !! a) as [[| | |l|]|] eqn:E; try done.
    exists []. pose proof (bes_lookup _ _ _ Hm E) as Hb. simpl in Hb.
    pose proof (lg_push a v (bes m)) as Hl. unfold tape_push in Hl at 2. rewrite Hb in Hl. rewrite Hb.
    split; [done|]. do 2 (split; [constructor|]).
    exists (<[a := Tape (l ++ [v])]> m). rewrite bes_insert. split; [done|]. split; [done|].
    eapply okmem_insert; [done|exact E|done|done|]. by intros [?|[??]].
  Qed.
  Lemma local_take a : local (tape_take a).
  Proof.
    intros m Hm. unfold tape_take. destruct (m !! a) as [[| | |l|]|] eqn:E; try done.
    exists []. pose proof (bes_lookup _ _ _ Hm E) as Hb. simpl in Hb.
    pose proof (lg_take a (bes m)) as Hl. unfold tape_take in Hl at 2. rewrite Hb in Hl. rewrite Hb.
    split; [done|]. do 2 (split; [constructor|]).
    exists (<[a := Tape []]> m). rewrite bes_insert. split; [done|]. split; [done|].
    eapply okmem_insert; [done|exact E|done|done|]. by intros [?|[??]].
  Qed.
  Lemma local_cmp t f a b : (∀ l, only_looks (f l)) → local (tape_cmp t f a b).
  Proof.
    intros Hf m Hm. unfold tape_cmp. destruct (m !! t) as [[| | |l|]|] eqn:E; try done.
    destruct (Hf l a b m) as [->|[r Hr]]; [done|].
    rewrite (Hr m) //. exists []. pose proof (bes_lookup _ _ _ Hm E) as Hb. simpl in Hb.
    pose proof (lg_cmp t f a b (bes m)) as Hl. unfold tape_cmp in Hl at 2.
    assert (Hb' : f l a b (bes m) = Ok r (bes m)).
    { apply Hr. intros k c Hk Hc. rewrite (bes_lookup _ _ _ Hm Hk). destruct c; try done. by destruct (Hc h). }
    rewrite Hb Hb' in Hl. rewrite Hb Hb'.
    split; [done|]. do 2 (split; [constructor|]).
    exists (<[t := Tape (l ++ [a; b])]> m). rewrite bes_insert. split; [done|]. split; [done|].
    eapply okmem_insert; [done|exact E|done|done|]. by intros [?|[??]].
  Qed.

  Lemma delete_all_lookup ks m k : delete_all ks m !! k = if decide (k ∈ ks) then None else m !! k.
  Proof.
    induction ks as [|k' ks IH]; cbn [delete_all]; [destruct (decide _) as [H|_]; [by apply elem_of_nil in H|done]|].
    destruct (decide (k = k')) as [->|Hne].
    - rewrite lookup_delete. destruct (decide (k' ∈ k' :: ks)) as [_|H]; [done|]. destruct H. left.
    - rewrite lookup_delete_ne // IH. destruct (decide (k ∈ ks)), (decide (k ∈ k' :: ks)) as [Hk|Hk]; try done.
      + destruct Hk. by right.
      + by apply elem_of_cons in Hk as [?|?].
  Qed.
  Lemma bes_delete_all ks m : Forall (λ a, F !! a = None) ks → bes (delete_all ks m) = delete_all ks (bes m).
  Proof.
    intros HF. apply map_eq. intros k. rewrite delete_all_lookup /beside.
    destruct (decide (k ∈ ks)) as [Hk|Hk].
    - rewrite lookup_union lookup_fmap delete_all_lookup decide_True // /=.
      rewrite Forall_forall in HF. by rewrite HF.
    - by rewrite !lookup_union !lookup_fmap delete_all_lookup decide_False.
  Qed.
  Lemma local_free a : local (free a).
  Proof.
    intros m Hm. pose proof (lg_free a (bes m)) as Hl. destruct (decide (a = 0)) as [Ha|Ha].
    { assert (H : ∀ m, free a m = Ok tt m) by (intros; unfold free; by rewrite decide_True).
      rewrite H in Hl. rewrite !H. exists []. split; [done|]. do 2 (split; [constructor|]). by exists m. }
    destruct (free a m) as [[] m1| |n|] eqn:Em; try done.
    2:{ exfalso. unfold free in Em. rewrite decide_False // in Em.
        destruct (m !! HCTL) as [[| | | |h]|]; try done. by destruct (hc_live h !! a). }
    unfold free in Em. rewrite decide_False // in Em.
    destruct (m !! HCTL) as [[| | | |h]|] eqn:E; try done.
    destruct (hc_live h !! a) as [r|] eqn:Er; [|done]. injection Em as <-.
    pose proof (bes_lookup _ _ _ Hm E) as Hb. simpl in Hb.
    pose proof Hm as [[Hd Hh] Hw]. destruct (Hh _ E) as [HFL HFc].
    assert (HF := HFc _ _ Er). simpl in HF.
    assert (HFa : FL !! a = None) by by eapply map_disjoint_Some_r.
    set (m1 := <[HCTL := Ctl (HeapCtl (delete a (hc_live h)) (hc_oracle h) (hc_next h))]> (delete_all (region_cells a r) m)).
    assert (Hs : free a (bes m) = Ok tt (bes m1)).
    { unfold free. rewrite decide_False // Hb /= (lookup_union_Some_l _ _ _ _ Er) /m1 bes_insert bes_delete_all //=.
      do 4 f_equal. by rewrite delete_union (delete_notin FL). }
    rewrite Hs in Hl |- *. exists []. split; [done|]. do 2 (split; [constructor|]). exists m1. split; [done|]. split; [done|].
    split; [split|].
    - apply map_disjoint_insert_r. split; [by eapply ok_F|]. eapply map_disjoint_weaken_r; [exact Hd|].
      clear. induction (region_cells a r) as [|k ks IH]; simpl; [done|]. etrans; [apply delete_subseteq|done].
    - intros h' [[_ [= <-]]|[? _]]%lookup_insert_Some; [|done]. simpl. split.
      + by apply map_disjoint_delete_r.
      + by apply map_Forall_delete.
    - apply map_Forall_insert_2; [by intros [?|[??]]|]. intros k c Hk. rewrite delete_all_lookup in Hk.
      destruct (decide (k ∈ region_cells a r)); [done|]. by apply Hw.
  Qed.

  (** A new block of words, or of bytes. *)
  Lemma local_region r c : (∀ h, c ≠ Ctl h) → (wordcell c → ∃ n, r = RWords n) → local (alloc_region r c).
  Proof.
    intros Hc Hr m Hm. pose proof (lg_region r c (bes m)) as Hl.
    destruct (m !! HCTL) as [cc|] eqn:E; [|unfold alloc_region at 1; by rewrite E].
    destruct cc as [| | | |h]; try (unfold alloc_region at 1; by rewrite E).
    pose proof (bes_lookup _ _ _ Hm E) as Hb. simpl in Hb.
    set (a := hc_oracle h (hc_next h)) in *. pose proof Hm as [[Hd Hh] Hw]. destruct (Hh _ E) as [HFL HFc].
    set (hb := HeapCtl (hc_live h ∪ FL) (hc_oracle h) (hc_next h)) in *.
    destruct (decide (fresh_ok (bes m) hb a r)) as [Hf|Hf].
    2:{ assert (Hs : alloc_region r c (bes m) = Env (region_bytes r)).
        { unfold alloc_region. rewrite Hb. cbv zeta. by rewrite decide_False. }
        rewrite Hs in Hl |- *.
        assert (H : ∃ l, logged (alloc_region r c) (bes m) l (Env (region_bytes r)) ∧ Forall aligned_access l ∧
          Forall (outside F) l ∧ True) by by exists [].
        by destruct (alloc_region r c m). }
    pose proof Hf as (H0 & H16 & Hmax & Hcells & Hblocks & Hnone). simpl in Hblocks, Hnone.
    apply lookup_union_None in Hnone as [Hn1 Hn2].
    assert (Hf' : fresh_ok m h a r).
    { split; [done|]. split; [done|]. split; [done|]. split; [|split; [|done]].
      - intros k x Hk. eapply Hcells. by eapply bes_lookup.
      - intros b s Hbs. eapply Hblocks. by apply lookup_union_Some_l. }
    set (new := list_to_map ((λ k, (k, c)) <$> region_cells a r) : mem).
    set (m1 := <[HCTL := Ctl (HeapCtl (<[a := r]> (hc_live h)) (hc_oracle h) (S (hc_next h)))]> (new ∪ m)).
    assert (Hnew : ∀ k x, new !! k = Some x → x = c ∧ k ∈ region_cells a r).
    { intros k x Hk. apply elem_of_list_to_map_2, elem_of_list_fmap in Hk as (k' & [= <- <-] & Hk'). done. }
    assert (Hadd : add_blocks FL <$> new = new).
    { rewrite -{2}(map_fmap_id new). apply map_fmap_ext. intros k x Hk.
      destruct (Hnew _ _ Hk) as [-> _]. destruct c; try done. by destruct (Hc h0). }
    assert (Hs1 : alloc_region r c m = Ok a m1).
    { unfold alloc_region. rewrite E. cbv zeta. by rewrite decide_True. }
    assert (Hs : alloc_region r c (bes m) = Ok a (bes m1)).
    { unfold alloc_region. rewrite Hb. cbv zeta. rewrite decide_True //. f_equal. rewrite /m1 bes_insert /=. f_equal.
      - do 2 f_equal. by rewrite insert_union_l.
      - by rewrite /beside map_fmap_union -map_union_assoc Hadd. }
    rewrite Hs in Hl |- *. rewrite Hs1. exists []. split; [done|]. do 2 (split; [constructor|]).
    exists m1. split; [done|]. split; [done|].
    assert (Hin : ∀ k, k ∈ region_cells a r → a ≤ k < a + region_bytes r).
    { intros k. destruct r as [n|n]; simpl; intros (i & -> & Hi%elem_of_seq)%elem_of_list_fmap; lia. }
    assert (HFr : Forall (λ k, F !! k = None) (region_cells a r)).
    { apply Forall_forall. intros k Hk%Hin. destruct (F !! k) as [x|] eqn:Ek; [|done]. exfalso.
      eapply (Hcells k); [|exact Hk]. rewrite /beside. apply lookup_union_Some_raw. right. split; [|done].
      rewrite lookup_fmap. by rewrite (map_disjoint_Some_l _ _ _ _ Hd Ek). }
    split; [split|].
    - apply map_disjoint_insert_r. split; [by eapply ok_F|]. apply map_disjoint_union_r. split; [|done].
      apply map_disjoint_spec. intros k x y Hx Hy. apply Hnew in Hy as [_ Hy]. rewrite Forall_forall in HFr.
      by rewrite (HFr k) in Hx.
    - intros h' [[_ [= <-]]|[? _]]%lookup_insert_Some; [|done]. simpl. split.
      + apply map_disjoint_insert_r. done.
      + apply map_Forall_insert_2; done.
    - apply map_Forall_insert_2; [by intros [?|[??]]|].
      intros k x [Hk|[_ Hk]]%lookup_union_Some_raw; [|by apply Hw]. apply Hnew in Hk as [-> Hk]. intros Hx.
      destruct (Hr Hx) as [n ->]. simpl in Hk. apply elem_of_list_fmap in Hk as (i & -> & _).
      pose proof (Z.div_mod a 16). replace (a + 8 * Z.of_nat i) with ((2 * (a / 16) + Z.of_nat i) * 8) by lia.
      by apply Z.mod_mul.
  Qed.
  Lemma local_malloc n : local (malloc n).
  Proof. apply local_region; [done|]. by eexists. Qed.
  Lemma local_calloc_words n : local (calloc_words n).
  Proof. rewrite /calloc_words. destruct (decide _); [|apply local_nomem]. apply local_region; [done|]. by eexists. Qed.
  Lemma local_calloc_bytes n k : local (calloc_bytes n k).
  Proof.
    rewrite /calloc_bytes. destruct (decide _); [|apply local_nomem]. apply local_region; [done|]. by intros [?|[??]].
  Qed.

  Lemma size_bes m : (size m ≤ size (bes m))%nat.
  Proof.
    rewrite -!(size_dom (D:=gset Z)). apply subseteq_size. intros a [c Ha]%elem_of_dom. apply elem_of_dom.
    exists (add_blocks FL c). rewrite /beside. apply lookup_union_Some_l. by rewrite lookup_fmap Ha.
  Qed.
End local.

Create HintDb loc discriminated.
Global Hint Constants Opaque : loc.
Global Hint Resolve local_ret local_ub local_fuel local_nomem local_assert local_load local_loadb local_store local_storeb
  local_push local_take local_free local_malloc local_calloc_words local_calloc_bytes : loc.

Ltac local_step :=
  match goal with
  | |- local _ _ (_ ≫= _) => apply local_bind; [|intros ?]
  | |- local _ _ (if ?x then _ else _) => destruct x
  | |- local _ _ (match ?x with _ => _ end) => destruct x
  | |- local _ _ (let _ := _ in _) => cbv zeta
  | |- local _ _ _ => solve [auto with loc nocore]
  | H : context [local _ _ _] |- local _ _ _ => simple apply H
  end.
Ltac local_all := repeat local_step.

(** The results satisfy [Q]. *)
Definition gives {A} (Q : A → Prop) (c : M A) : Prop := ∀ m v m', c m = Ok v m' → Q v.
Lemma gives_ret {A} (Q : A → Prop) v : Q v → gives Q (mret v).
Proof. by intros H m v' m' [= <- <-]. Qed.
Lemma gives_bind {A B} (R : A → Prop) (Q : B → Prop) c k : gives R c → (∀ v, R v → gives Q (k v)) → gives Q (c ≫= k).
Proof.
  intros Hc Hk m v m' H. rewrite /mbind /M_bind in H. destruct (c m) as [x m1| | |] eqn:E; try done.
  eapply Hk; [|exact H]. by eapply Hc.
Qed.
Lemma gives_any {A} (c : M A) : gives (λ _, True) c.
Proof. done. Qed.

(** ** Runs *)
Section run.
  Context {op out cst : Type}.
  Variables (step : cst → op → M (cst * out)) (F : mem) (FL : gmap Z region).
  Lemma local_run (I : cst → Prop) (P : op → Prop) c :
    (∀ cs o, I cs → P o → local F FL (step cs o) ∧ gives (λ r, I r.1) (step cs o)) → every P c →
    ∀ cs, I cs → local F FL (run step cs c).
  Proof.
    intros Hst. induction c as [|o k IH]; simpl; intros Hev cs Hi; [apply local_ret|]. destruct Hev as [Ho Hk].
    destruct (Hst cs o Hi Ho) as [Hl Hg]. apply local2_bind; [done|]. intros v m m' Hv%Hg.
    apply local_bind; [by apply IH|]. intros. apply local_ret.
  Qed.
  (** A run that is defined in the memory of the client is as expected beside other memory. *)
  Lemma run_own (I : cst → Prop) (P : op → Prop) c cs m φ :
    (∀ cs o, I cs → P o → local F FL (step cs o) ∧ gives (λ r, I r.1) (step cs o)) → every P c → I cs →
    foreign F FL m → words_aligned m → safe (run step cs c m) φ →
    accesses_own F FL (run step cs c) m ∧ same_alone F FL (run step cs c) m.
  Proof.
    intros Hst Hev Hi Hf Hw Hs. pose proof (local_run I P c Hst Hev cs Hi m (conj Hf Hw)) as H.
    destruct (run step cs c m) as [v m1| |n|] eqn:E; try done.
    - destruct H as (l & Hl & H1 & H2 & H3). split; [by exists l|]. rewrite /same_alone E.
      destruct (run step cs c (beside F FL m)); try done. destruct H3 as (m' & ? & ? & [? ?]). by exists m'.
    - destruct H as (l & Hl & H1 & H2 & H3). split; [by exists l|]. rewrite /same_alone E.
      destruct (run step cs c (beside F FL m)); try done. destruct H3 as (m' & ? & ? & [? ?]). by exists m'.
  Qed.
End run.
