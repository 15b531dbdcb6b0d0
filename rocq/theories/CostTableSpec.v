(** * Accesses of the dynamic hashtable: vocabulary of the statements. *)
From Verif Require Export CostSpec HashDynAmort.
Global Open Scope Z_scope.

(** How many of the elements [es] are in the bucket of [h] of a dynamic hashtable. *)
Definition same_bucket (st : hashdyn) (es : list ent) (h : Z) : Z :=
  Z.of_nat (length (filter (fun e => en_h e mod hd_bucket_max st = h mod hd_bucket_max st) es)).

(** The visits of all the elements are left out. *)
Definition no_visit (o : top) : Prop := match o with TForeach | TForeachArg _ | TForeachFree => False | _ => True end.
(** An operation on the dynamic hashtable after the operations [tr], which changes the
    struct from [cs] to [cs'], may make [n] accesses.  [hd_op_work] is the number of
    buckets and elements that it goes through because the table is resized. *)
Definition hashdyn_within (om : objmap) (live : gmap Z region) (tr : list (top * tout)) (cs cs' : option hashdyn) (o : top) (n : Z) : Prop :=
  match o with
  | TInit _ | TCount | TDone => n = 0
  | TInsert _ _ _ => n <= 9 + 9 * hd_op_work cs cs'
  | TRemoveExisting _ => n <= 10 + 9 * hd_op_work cs cs'
  | TRemove _ _ _ h => exists st es, cs = Some st /\ content om live tr es /\
      n <= 10 + 3 * same_bucket st es h + 9 * hd_op_work cs cs'
  | TSearch _ _ _ h => exists st es, cs = Some st /\ content om live tr es /\ n <= 1 + 3 * same_bucket st es h
  | TBucket h => exists st es, cs = Some st /\ content om live tr es /\ n <= 1 + 2 * same_bucket st es h
  | TForeach | TForeachArg _ | TForeachFree => False
  end.

(** Operations that search nothing. *)
Definition by_node (o : top) : Prop :=
  match o with TInit _ | TInsert _ _ _ | TRemoveExisting _ | TCount | TDone => True | _ => False end.
