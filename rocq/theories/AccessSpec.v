(** * Which addresses are accessed: vocabulary of the statements. *)
From Verif Require Import TreeSpec.
From Verif Require Export RequestSpec ListSpec InpSpec.
Global Open Scope Z_scope.

(** One access of the memory: a word of 8 bytes, or a byte. *)
Inductive access := AWord (a : Z) | AByte (a : Z).

(** [logged c m l r]: run in memory [m], the code [c] ends with [r], and the
    accesses that it makes are [l], in this order.  The accesses of malloc, of
    free and of the client's own callbacks are not counted.  Of the memory, code
    may look at nothing but the words and bytes that it loads, and at the number of
    its cells (that bounds a loop of the model). *)
Inductive logged : forall {A : Type}, M A -> mem -> list access -> res A -> Prop :=
  | lg_ret A (v : A) m : logged (mret v) m [] (Ok v m)
  | lg_ub A m : logged (@ub A) m [] UB
  | lg_fuel A m : logged (@fuel_out A) m [] Fuel
  | lg_assert b m : logged (massert b) m [] (massert b m)
  | lg_load a m : logged (load a) m [AWord a] (load a m)
  | lg_store a v m : logged (store a v) m [AWord a] (store a v m)
  | lg_loadb a m : logged (loadb a) m [AByte a] (loadb a m)
  | lg_storeb a v m : logged (storeb a v) m [AByte a] (storeb a v m)
  | lg_region r c m : logged (alloc_region r c) m [] (alloc_region r c m)
  | lg_nomem A n m : logged (fun _ => @Env A n) m [] (Env n)
  | lg_free a m : logged (free a) m [] (free a m)
  | lg_push a v m : logged (tape_push a v) m [] (tape_push a v m)
  | lg_take a m : logged (tape_take a) m [] (tape_take a m)
  | lg_cmp t f a b m : logged (tape_cmp t f a b) m [] (tape_cmp t f a b m)
  | lg_size A (k : nat -> M A) m l r : logged (k (size m)) m l r -> logged (fun m => k (size m) m) m l r
  | lg_bind A B (c : M A) (k : A -> M B) m l v m' l' r :
      logged c m l (Ok v m') -> logged (k v) m' l' r -> logged (c ≫= k) m (l ++ l') r
  | lg_bind_ub A B (c : M A) (k : A -> M B) m l : logged c m l UB -> logged (c ≫= k) m l UB
  | lg_bind_env A B (c : M A) (k : A -> M B) m l n : logged c m l (Env n) -> logged (c ≫= k) m l (Env n)
  | lg_bind_fuel A B (c : M A) (k : A -> M B) m l : logged c m l Fuel -> logged (c ≫= k) m l Fuel.

(** A word is accessed at a multiple of 8. *)
Definition aligned_access (e : access) : Prop := match e with AWord a => a mod 8 = 0 | AByte _ => True end.
(** The access is not in [F]. *)
Definition outside (F : mem) (e : access) : Prop := match e with AWord a | AByte a => F !! a = None end.

(** The words of the memory are at multiples of 8. *)
Definition words_aligned (m : mem) : Prop := map_Forall (fun a c => wordcell c -> a mod 8 = 0) m.

(** Memory [m] beside the cells [F] and the live heap blocks [FL] of others. *)
Definition add_blocks (FL : gmap Z region) (c : cell) : cell :=
  match c with Ctl h => Ctl (HeapCtl (hc_live h ∪ FL) (hc_oracle h) (hc_next h)) | _ => c end.
Definition beside (F : mem) (FL : gmap Z region) (m : mem) : mem := (add_blocks FL <$> m) ∪ F.

(** The cells [F] and the blocks [FL] are not those of [m]. *)
Definition foreign (F : mem) (FL : gmap Z region) (m : mem) : Prop :=
  F ##ₘ m /\
  forall h, m !! HCTL = Some (Ctl h) ->
    FL ##ₘ hc_live h /\ map_Forall (fun b r => Forall (fun a => F !! a = None) (region_cells b r)) (hc_live h).

(** A comparison that reads the memory and does not change it: if the memory
    holds what it needs, any memory that holds the same cells does, whatever else
    there is and whatever the state of the heap. *)
Definition only_looks (f : Z -> Z -> M Z) : Prop :=
  forall a b m, f a b m = UB \/
    exists r, forall m2, (forall k c, m !! k = Some c -> (forall h, c <> Ctl h) -> m2 !! k = Some c) ->
      f a b m2 = Ok r m2.

(** The code [c] run in memory [m] with [F] and [FL] beside it: its accesses are
    aligned and none is in [F] ... *)
Definition accesses_own {A} (F : mem) (FL : gmap Z region) (c : M A) (m : mem) : Prop :=
  exists l, logged c (beside F FL m) l (c (beside F FL m)) /\ Forall aligned_access l /\ Forall (outside F) l.
(** ... and, unless it stops because malloc fails, it does what it does when it
    is alone, and leaves [F] and [FL] as they are. *)
Definition same_alone {A} (F : mem) (FL : gmap Z region) (c : M A) (m : mem) : Prop :=
  match c (beside F FL m) with
  | Ok v m2 => exists m', c m = Ok v m' /\ m2 = beside F FL m' /\ foreign F FL m'
  | Env _ => True
  | UB | Fuel => False
  end.

(** ** Clients whose comparisons only look *)
Definition llooks (o : lop) : Prop := match o with LSort _ f _ => forall l, only_looks (f l) | _ => True end.
Definition tlooks (o : top) : Prop :=
  match o with TRemove f _ _ _ | TSearch f _ _ _ => only_looks f | _ => True end.
Definition trlooks (o : trop) : Prop :=
  match o with TrInit f _ | TrSearchCompare f _ _ => only_looks f | _ => True end.

(** ** For every allowed history of a client that is alone in memory [m], and for
    all the memory of others beside it, [P] *)
Section histories.
  Variable P : forall A, mem -> gmap Z region -> M A -> mem -> Prop.
  Definition list_beside : Prop := forall om K ls t live m fuel c F FL,
    list_start om K ls t live m -> (size om <= fuel)%nat -> allowed (lpre om K) lpost (lstate0 om ls live) c ->
    every llooks c -> words_aligned m -> foreign F FL m -> P _ F FL (run (lstep fuel t) tt c) m.
  Definition table_beside (T : table) : Prop := forall om K t live m fuel c F FL,
    table_start om K t live m -> (size om <= fuel)%nat -> allowed (tpre om K) tpost (tstate0 om live) c ->
    every tlooks c -> words_aligned m -> foreign F FL m -> P _ F FL (run (tstep T fuel t) None c) m.
  Definition array_beside (T : arrays) : Prop := forall live m c F FL,
    heap_live m live -> allowed (apre T) (apost T) (astate0 live) c ->
    words_aligned m -> foreign F FL m -> P _ F FL (run (astep T) None c) m.
  Definition allocator_beside : Prop := forall live m c F FL,
    heap_live m live -> allowed ppre ppost (pstate0 live) c ->
    words_aligned m -> foreign F FL m -> P _ F FL (run pstep None c) m.
  Definition trie_beside : Prop := forall om tb live m fuel c F FL,
    trie_start om tb live m -> (10 <= fuel)%nat -> allowed xpre xpost (xstate0 om live) c ->
    words_aligned m -> foreign F FL m -> P _ F FL (run (xstep fuel tb) None c) m.
  Definition inp_beside : Prop := forall om tb m fuel c F FL,
    inp_start om tb m -> (14 <= fuel)%nat -> allowed ipre ipost (istate0 om) c ->
    words_aligned m -> foreign F FL m -> P _ F FL (run (istep fuel tb) None c) m.
  Definition tree_beside : Prop := forall om K D t live m fuel c F FL,
    tree_start om K t live m -> (size om + 4 <= fuel)%nat -> allowed (trpre om K D) trpost (trstate0 om live) c ->
    every trlooks c -> words_aligned m -> foreign F FL m -> P _ F FL (run (trstep fuel t) None c) m.
End histories.
