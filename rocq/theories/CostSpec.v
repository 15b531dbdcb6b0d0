(** * How many accesses a function makes: vocabulary of the statements. *)
From Verif Require Export AccessSpec.
From Verif Require Import TreeSpec.
Global Open Scope Z_scope.

(** Run in any memory, whatever happens, [c] makes at most [n] accesses. *)
Definition at_most (n : nat) {A} (c : M A) : Prop :=
  forall m, exists l, logged c m l (c m) /\ (length l <= n)%nat.

(** [c], which visits elements and writes each on the tape at [t], makes at most [n]
    accesses and [k] for each element. *)
Definition visit_cost (n k : Z) (t : Z) (c : M unit) : Prop :=
  forall m ws m', m !! t = Some (Tape ws) -> c m = Ok tt m' -> exists log ws', logged c m log (Ok tt m') /\
    m' !! t = Some (Tape ws') /\ Z.of_nat (length log) <= n + k * (Z.of_nat (length ws') - Z.of_nat (length ws)).

(** How many accesses an operation on a tree of [N] elements may make, where [k] is
    the length of a path. *)
Definition tree_budget (N k : Z) (o : trop) : Z :=
  match o with
  | TrInsert _ _ => 7 + 627 * k
  | TrRemove _ | TrRemoveExisting _ => 5 + 19 * k + 304 * k * k
  | TrSearch _ | TrSearchCompare _ _ _ => 1 + 2 * k
  | TrForeach | TrForeachFree => 3 * N
  | TrForeachArg _ => 4 * N
  | TrInit _ _ | TrCount | TrUsage => 0
  end.
