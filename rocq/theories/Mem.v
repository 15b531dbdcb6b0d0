(** * Memory, outcomes and the monad in which the C code is modelled.

    This file models no function of the library itself but the C machine it
    runs on: a 64-bit platform (tommytypes.h:57-60, TOMMY_SIZE_BIT 64).  *)
From Coq Require Export ssreflect.
From stdpp Require Export prelude gmap.

Global Open Scope general_if_scope.
Global Open Scope Z_scope.

(** ** Cells *)

(** A heap block obtained from malloc/calloc is a run of [n] words
    ([RWords n]) or of [n] bytes ([RBytes n]). *)
Inductive region := RWords (n : nat) | RBytes (n : nat).

(** State of the C heap manager: the live blocks (base address -> extent),
    and the oracle that decides which address the [k]-th allocation returns.
    The oracle is arbitrary: theorems quantify over it. *)
Record heapctl := HeapCtl {
  hc_live : gmap Z region;
  hc_oracle : nat -> Z;
  hc_next : nat }.

(** Contents of one memory cell. *)
Inductive cell :=
| W (z : Z)          (* initialised 64-bit word *)
| U                  (* uninitialised 64-bit word *)
| B (b : Z)          (* initialised byte *)
| Tape (l : list Z)  (* client-side observation tape; no C object, see [tape_push] *)
| Ctl (h : heapctl). (* state of the heap manager, see [HCTL] *)

Definition mem := gmap Z cell.

(** The heap manager state is kept in the memory map at an address that is no
    C address. *)
Definition HCTL : Z := -1.

(** ** Outcomes *)

(** [Ok v m]: normal result.  [UB]: undefined behaviour or failed assert.
    [Env n]: malloc, asked for [n] bytes, failed or broke its contract.  [Fuel]: the fuel of a loop
    ran out (the real loop may not terminate). *)
Inductive res (A : Type) :=
| Ok (v : A) (m : mem)
| UB
| Env (n : Z)
| Fuel.
Global Arguments Ok {A} _ _.
Global Arguments UB {A}.
Global Arguments Env {A} _.
Global Arguments Fuel {A}.

Definition M (A : Type) := mem -> res A.

Global Instance M_ret : MRet M := fun A v m => Ok v m.
Global Instance M_bind : MBind M := fun A B k c m =>
  match c m with
  | Ok v m' => k v m'
  | UB => UB
  | Env n => Env n
  | Fuel => Fuel
  end.

(** ** Constants *)

Definition wsize : Z := 64.
Definition wmod : Z := 2 ^ 64.
(** wrap-around of tommy_size_t / tommy_uint64_t arithmetic *)
Definition wrap (x : Z) : Z := x mod 2 ^ 64.
(** wrap-around of tommy_uint32_t arithmetic *)
Definition wrap32 (x : Z) : Z := x mod 2 ^ 32.

(** ** Primitive operations *)

Definition ub {A} : M A := fun _ => UB.
Definition fuel_out {A} : M A := fun _ => Fuel.

(** assert() of <assert.h>: a failing assert is reported as [UB]. *)
Definition massert (b : bool) : M unit := fun m => if b then Ok tt m else UB.

(** Read of an initialised word through a pointer. *)
Definition load (a : Z) : M Z := fun m =>
  match m !! a with Some (W z) => Ok z m | _ => UB end.

(** Write of a word through a pointer. *)
Definition store (a : Z) (v : Z) : M unit := fun m =>
  match m !! a with
  | Some (W _) | Some U => Ok tt (<[a := W v]> m)
  | _ => UB
  end.

(** Read and write of a byte. *)
Definition loadb (a : Z) : M Z := fun m =>
  match m !! a with Some (B z) => Ok z m | _ => UB end.

Definition storeb (a : Z) (v : Z) : M unit := fun m =>
  match m !! a with
  | Some (B _) => Ok tt (<[a := B v]> m)
  | _ => UB
  end.

(** ** malloc / calloc / free (tommytypes.h:92-115) *)

Definition region_bytes (r : region) : Z :=
  match r with RWords n => 8 * Z.of_nat n | RBytes n => Z.of_nat n end.

(** Addresses of the cells of a block. *)
Definition region_cells (a : Z) (r : region) : list Z :=
  match r with
  | RWords n => (fun i : nat => a + 8 * Z.of_nat i) <$> seq 0 n
  | RBytes n => (fun i : nat => a + Z.of_nat i) <$> seq 0 n
  end.

(** What the C standard and the platform guarantee about the address of a new
    block: not null, aligned to 16 (max_align_t on 64-bit), inside the address
    space, overlapping neither existing cells nor existing blocks. *)
Definition fresh_ok (m : mem) (h : heapctl) (a : Z) (r : region) : Prop :=
  0 < a /\ a mod 16 = 0 /\ a + region_bytes r < 2 ^ 64 /\
  map_Forall (fun k (_ : cell) => ~ (a <= k < a + region_bytes r)) m /\
  map_Forall (fun b s => a + region_bytes r <= b \/ b + region_bytes s <= a) (hc_live h) /\
  hc_live h !! a = None.

Global Instance fresh_ok_dec m h a r : Decision (fresh_ok m h a r).
Proof. unfold fresh_ok. apply _. Defined.

(** Allocation of a block whose cells all hold [c]. *)
Definition alloc_region (r : region) (c : cell) : M Z := fun m =>
  match m !! HCTL with
  | Some (Ctl h) =>
      let a := hc_oracle h (hc_next h) in
      if decide (fresh_ok m h a r) then
        let h' := HeapCtl (<[a := r]> (hc_live h)) (hc_oracle h) (S (hc_next h)) in
        Ok a (<[HCTL := Ctl h']> (list_to_map ((fun k => (k, c)) <$> region_cells a r) ∪ m))
      else Env (region_bytes r)
  | _ => UB
  end.

(** malloc of [n] bytes, used by the library only for objects made of words.
    The content is uninitialised. *)
Definition malloc (n : Z) : M Z := alloc_region (RWords (Z.to_nat (n / 8))) U.

(** calloc(n, sizeof(void* )): zeroed words.  calloc detects overflow of the
    product and fails: [Env]. *)
Definition calloc_words (n : Z) : M Z :=
  if decide (8 * n < 2 ^ 64) then alloc_region (RWords (Z.to_nat n)) (W 0) else fun _ => Env (8 * n).

(** calloc(n, sz) of byte objects: zeroed bytes. *)
Definition calloc_bytes (n sz : Z) : M Z :=
  if decide (n * sz < 2 ^ 64) then alloc_region (RBytes (Z.to_nat (n * sz))) (B 0) else fun _ => Env (n * sz).

Fixpoint delete_all (ks : list Z) (m : mem) : mem :=
  match ks with [] => m | k :: ks => delete k (delete_all ks m) end.

(** free: null is ignored; anything that is not the base of a live block is
    undefined behaviour. *)
Definition free (a : Z) : M unit := fun m =>
  if decide (a = 0) then Ok tt m else
  match m !! HCTL with
  | Some (Ctl h) =>
      match hc_live h !! a with
      | Some r =>
          let h' := HeapCtl (delete a (hc_live h)) (hc_oracle h) (hc_next h) in
          Ok tt (<[HCTL := Ctl h']> (delete_all (region_cells a r) m))
      | None => UB
      end
  | _ => UB
  end.

(** Client-side observation: a callback supplied by the client of the model
    may append to a tape, so that the sequence of its calls is visible in the
    final memory.  The library itself never touches tapes. *)
Definition tape_push (a : Z) (v : Z) : M unit := fun m =>
  match m !! a with
  | Some (Tape l) => Ok tt (<[a := Tape (l ++ [v])]> m)
  | _ => UB
  end.

(** ** tommy_node (tommytypes.h:195-221) *)

Definition f_next (p : Z) : Z := p.
Definition f_prev (p : Z) : Z := p + 8.
Definition f_data (p : Z) : Z := p + 16.
Definition f_index (p : Z) : Z := p + 24.

(** NULL *)
Definition null : Z := 0.

(** Client-side: read the tape and clear it. *)
Definition tape_take (a : Z) : M (list Z) := fun m =>
  match m !! a with
  | Some (Tape l) => Ok l (<[a := Tape []]> m)
  | _ => UB
  end.

(** ** Vocabulary for statements *)

(** A cell that holds a word, initialised or not. *)
Definition wordcell (c : cell) : Prop := c = U \/ exists z, c = W z.

(** Acceptable outcome: a normal result satisfying [φ], or a failing
    allocator.  Never undefined behaviour, never out of fuel. *)
Definition safe {A} (r : res A) (φ : A -> mem -> Prop) : Prop :=
  match r with Ok v m' => φ v m' | Env _ => True | UB | Fuel => False end.

(** A normal result satisfying [φ]: for code that does not allocate. *)
Definition succeeds {A} (r : res A) (φ : A -> mem -> Prop) : Prop :=
  match r with Ok v m' => φ v m' | Env _ | UB | Fuel => False end.
