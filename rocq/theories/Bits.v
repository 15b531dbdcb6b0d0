(** * Model of the bit functions of tommytypes.h *)
From Verif Require Export Mem.
Global Open Scope Z_scope.

(** C operators on tommy_uint32_t values (representatives in [0, 2^32)) *)
Definition add32 (x y : Z) : Z := (x + y) mod 2 ^ 32.
Definition sub32 (x y : Z) : Z := (x - y) mod 2 ^ 32.
Definition mul32 (x y : Z) : Z := (x * y) mod 2 ^ 32.
Definition shl32 (x k : Z) : Z := (Z.shiftl x k) mod 2 ^ 32.
Definition shr (x k : Z) : Z := Z.shiftr x k.
Definition not32 (x : Z) : Z := Z.lxor x (2 ^ 32 - 1).
(** C operators on tommy_uint64_t values *)
Definition add64 (x y : Z) : Z := (x + y) mod 2 ^ 64.
Definition sub64 (x y : Z) : Z := (x - y) mod 2 ^ 64.
Definition shl64 (x k : Z) : Z := (Z.shiftl x k) mod 2 ^ 64.
Definition not64 (x : Z) : Z := Z.lxor x (2 ^ 64 - 1).

(** [value |= value >> k] *)
Definition smear (k v : Z) : Z := Z.lor v (shr v k).

(** tommytypes.h:368-371 *)
Definition DE_BRUIJN_INDEX_ILOG2 : list Z :=
  [0; 9; 1; 10; 13; 21; 2; 29; 11; 14; 16; 18; 22; 25; 3; 30;
   8; 12; 20; 28; 15; 17; 24; 7; 19; 27; 23; 6; 26; 5; 4; 31].

(** Indexing of a static table; -1 stands for an access out of the table. *)
Definition tbl (t : list Z) (i : Z) : Z := default (-1) (t !! Z.to_nat i).

(** tommytypes.h:348-381 tommy_ilog2_u32, branch without compiler intrinsics
    (lines 366-379) *)
Definition ilog2_u32_portable (value : Z) : Z :=
  let value := smear 1 value in
  let value := smear 2 value in
  let value := smear 4 value in
  let value := smear 8 value in
  let value := smear 16 value in
  tbl DE_BRUIJN_INDEX_ILOG2 (shr (mul32 value 0x07C4ACDD) 27).

(** __builtin_clz / __builtin_clzll: number of leading zero bits of a non-zero
    value of [n] bits (meaning given by the compiler manual). *)
Definition builtin_clz (n value : Z) : Z := n - 1 - Z.log2 value.

(** tommytypes.h:364 tommy_ilog2_u32, __GNUC__ branch *)
Definition ilog2_u32_gnuc (value : Z) : Z := Z.lxor (builtin_clz 32 value) 31.

(** tommytypes.h:387-403 tommy_ilog2_u64, portable branch (lines 396-401) *)
Definition ilog2_u64_portable (value : Z) : Z :=
  let l := Z.land value 0xFFFFFFFF in
  let h := shr value 32 in
  if decide (h ≠ 0) then ilog2_u32_portable h + 32 else ilog2_u32_portable l.

(** tommytypes.h:394 tommy_ilog2_u64, __GNUC__ branch *)
Definition ilog2_u64_gnuc (value : Z) : Z := Z.lxor (builtin_clz 64 value) 63.

(** tommytypes.h:425-428 *)
Definition DE_BRUIJN_INDEX_CTZ : list Z :=
  [0; 1; 28; 2; 29; 14; 24; 3; 30; 22; 20; 15; 25; 17; 4; 8;
   31; 27; 13; 23; 21; 19; 16; 7; 26; 12; 18; 6; 11; 5; 10; 9].

(** tommytypes.h:414-432 tommy_ctz_u32, portable branch *)
Definition ctz_u32_portable (value : Z) : Z :=
  tbl DE_BRUIJN_INDEX_CTZ (shr (mul32 (Z.land value (sub32 0 value)) 0x077CB531) 27).

(** __builtin_ctz / __builtin_ctzll: number of trailing zero bits of a
    non-zero value (meaning given by the compiler manual). *)
Fixpoint pos_ctz (p : positive) : Z :=
  match p with xO p => 1 + pos_ctz p | _ => 0 end.
Definition builtin_ctz (value : Z) : Z :=
  match value with Zpos p => pos_ctz p | _ => 0 end.

(** tommytypes.h:421 and 445, __GNUC__ branches *)
Definition ctz_u32_gnuc (value : Z) : Z := builtin_ctz value.
Definition ctz_u64_gnuc (value : Z) : Z := builtin_ctz value.

(** tommytypes.h:438-454 tommy_ctz_u64, portable branch *)
Definition ctz_u64_portable (value : Z) : Z :=
  let l := Z.land value 0xFFFFFFFF in
  let h := shr value 32 in
  if decide (l ≠ 0) then ctz_u32_portable l else ctz_u32_portable h + 32.

(** tommytypes.h:462-476 tommy_roundup_pow2_u32 *)
Definition roundup_pow2_u32 (value : Z) : Z :=
  let value := sub32 value 1 in
  let value := smear 1 value in
  let value := smear 2 value in
  let value := smear 4 value in
  let value := smear 8 value in
  let value := smear 16 value in
  add32 value 1.

(** tommytypes.h:481-493 tommy_roundup_pow2_u64 *)
Definition roundup_pow2_u64 (value : Z) : Z :=
  let value := sub64 value 1 in
  let value := smear 1 value in
  let value := smear 2 value in
  let value := smear 4 value in
  let value := smear 8 value in
  let value := smear 16 value in
  let value := smear 32 value in
  add64 value 1.

(** tommytypes.h:499-502 tommy_haszero_u32 *)
Definition haszero_u32 (value : Z) : bool :=
  bool_decide (Z.land (Z.land (sub32 value 0x01010101) (not32 value)) 0x80808080 ≠ 0).

(** tommytypes.h:507-515 tommy_ilog2 / tommy_ctz / tommy_roundup_pow2 select
    the 64-bit versions.  The containers use them through these definitions;
    a zero argument is undefined behaviour of the intrinsic. *)
Definition ilog2 (value : Z) : M Z :=
  if decide (value = 0) then ub else mret (ilog2_u64_gnuc value).
Definition ctz (value : Z) : M Z :=
  if decide (value = 0) then ub else mret (ctz_u64_gnuc value).
Definition roundup_pow2 (value : Z) : Z := roundup_pow2_u64 value.
