(** * Accesses of the fixed and of the linear hashtable: vocabulary of the statements. *)
From Verif Require Export CostTableSpec HashLinAmort.
Global Open Scope Z_scope.

(** How many of the elements [es] are in the bucket of [h]. *)
Definition in_bucket (T : table) (st : tb_st T) (es : list ent) (h : Z) : Z :=
  Z.of_nat (length (filter (fun e => tb_slot T st (en_h e) = tb_slot T st h) es)).

(** The operation [o], on the struct [cs] and after the operations [tr], may make [n]
    accesses.  [ini], [ins] and [rem] are for init, for inserting and for removing. *)
Definition table_within (T : table) (ini ins rem : Z) (om : objmap) (live : gmap Z region) (tr : list (top * tout))
    (cs : option (tb_st T)) (o : top) (n : Z) : Prop :=
  match o with
  | TInit _ => n <= ini
  | TCount | TDone => n = 0
  | TInsert _ _ _ => n <= ins
  | TRemoveExisting _ => n <= rem
  | TRemove _ _ _ h => exists st es, cs = Some st /\ content om live tr es /\ n <= rem + 3 * in_bucket T st es h
  | TSearch _ _ _ h => exists st es, cs = Some st /\ content om live tr es /\ n <= 1 + 3 * in_bucket T st es h
  | TBucket h => exists st es, cs = Some st /\ content om live tr es /\ n <= 1 + 2 * in_bucket T st es h
  | TForeach | TForeachArg _ | TForeachFree => False
  end.

(** The buckets of the fixed hashtable, all cleared by init. *)
Definition ht_buckets (cs : option hashtable) : Z := match cs with Some st => ht_bucket_max st | None => 0 end.

(** The linear hashtable splits or joins [op_work] buckets.  To split some, an insert
    may go through all the elements, when all of them are in the first. *)
Definition hl_count_of (cs : option hashlin) : Z := match cs with Some st => hl_count st | None => 0 end.
Definition hl_insert_within (cs cs' : option hashlin) : Z :=
  if decide (op_work cs cs' = 0) then 9 else 9 + 3 * op_work cs cs' + 9 * hl_count_of cs'.
Definition hl_remove_within (cs cs' : option hashlin) : Z := 10 + 7 * op_work cs cs'.

(** The operation [o] searches a bucket of [b] elements; 0 if it searches none. *)
Definition walks (T : table) (om : objmap) (live : gmap Z region) (tr : list (top * tout)) (cs : option (tb_st T)) (o : top) (b : Z) : Prop :=
  match o with
  | TRemove _ _ _ h | TSearch _ _ _ h | TBucket h => exists st es, cs = Some st /\ content om live tr es /\ b = in_bucket T st es h
  | _ => b = 0
  end.
(** All the operations of [l], after those of [tr], search [n] elements. *)
Inductive walks_all (T : table) (om : objmap) (live : gmap Z region)
    : list (top * tout) -> option (tb_st T) -> list (top * tout * option (tb_st T)) -> Z -> Prop :=
  | walks_nil tr cs : walks_all T om live tr cs [] 0
  | walks_cons tr cs o a cs' l b n : walks T om live tr cs o b -> walks_all T om live (tr ++ [(o, a)]) cs' l n ->
      walks_all T om live tr cs ((o, a, cs') :: l) (b + n).
