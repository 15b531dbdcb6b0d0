(** * Sequences of insertions in the arrays of pointers: vocabulary of C79. *)
From Verif Require Import Array.
Global Open Scope Z_scope.

(** Initialise an array (tommyarray.c:33-45) and append the elements [es], one by one
    (tommyarray.h:123-130). *)
Fixpoint array_appends (t : array) (es : list Z) : M array :=
  match es with
  | [] => mret t
  | e :: es => t' ← array_insert t e; array_appends t' es
  end.
Definition array_of (es : list Z) : M array := t ← array_init; array_appends t es.

(** The same for the blocked array (tommyarrayblk.c:33-38, tommyarrayblk.h:121-128). *)
Fixpoint arrayblk_appends (t : arrayblk) (es : list Z) : M arrayblk :=
  match es with
  | [] => mret t
  | e :: es => t' ← arrayblk_insert t e; arrayblk_appends t' es
  end.
Definition arrayblk_of (es : list Z) : M arrayblk := t ← arrayblk_init; arrayblk_appends t es.

(** The number of blocks of 4096 elements that [n] elements need. *)
Definition blocks_for (n : Z) : Z := (n + 4095) / 4096.
