(** * Model of tommyhash.c and tommyhash.h *)
From Verif Require Export Bits.
Global Open Scope Z_scope.

(** tommyhash.c:40-41, portable branch of tommy_le_uint32_read *)
Definition le_uint32_read_portable (ptr : Z) : M Z :=
  p0 ← loadb (ptr + 0);
  p1 ← loadb (ptr + 1);
  p2 ← loadb (ptr + 2);
  p3 ← loadb (ptr + 3);
  mret (add32 (add32 (add32 p0 (shl32 p1 8)) (shl32 p2 16)) (shl32 p3 24)).

(** tommyhash.c:38, branch for x86: a 32-bit load on a little endian machine.
    The bytes of the word are the bytes in memory, lowest address first. *)
Definition le_uint32_read_x86 (ptr : Z) : M Z :=
  p0 ← loadb ptr;
  p1 ← loadb (ptr + 1);
  p2 ← loadb (ptr + 2);
  p3 ← loadb (ptr + 3);
  mret (Z.lor p0 (Z.lor (Z.shiftl p1 8) (Z.lor (Z.shiftl p2 16) (Z.shiftl p3 24)))).

(** tommyhash.c:33-43 tommy_le_uint32_read; [x86] is the condition of the
    #if at line 35, chosen when the library is compiled *)
Definition le_uint32_read (x86 : bool) (ptr : Z) : M Z :=
  if x86 then le_uint32_read_x86 ptr else le_uint32_read_portable ptr.

(** tommyhash.c:45-46 *)
Definition rot (x k : Z) : Z := Z.lor (shl32 x k) (shr x (32 - k)).

(** tommyhash.c:48-56 tommy_mix, the three variables as a triple *)
Definition mix (abc : Z * Z * Z) : Z * Z * Z :=
  let '(a, b, c) := abc in
  let a := sub32 a c in let a := Z.lxor a (rot c 4) in let c := add32 c b in
  let b := sub32 b a in let b := Z.lxor b (rot a 6) in let a := add32 a c in
  let c := sub32 c b in let c := Z.lxor c (rot b 8) in let b := add32 b a in
  let a := sub32 a c in let a := Z.lxor a (rot c 16) in let c := add32 c b in
  let b := sub32 b a in let b := Z.lxor b (rot a 19) in let a := add32 a c in
  let c := sub32 c b in let c := Z.lxor c (rot b 4) in let b := add32 b a in
  (a, b, c).

(** tommyhash.c:58-67 tommy_final *)
Definition final (abc : Z * Z * Z) : Z * Z * Z :=
  let '(a, b, c) := abc in
  let c := Z.lxor c b in let c := sub32 c (rot b 14) in
  let a := Z.lxor a c in let a := sub32 a (rot c 11) in
  let b := Z.lxor b a in let b := sub32 b (rot a 25) in
  let c := Z.lxor c b in let c := sub32 c (rot b 16) in
  let a := Z.lxor a c in let a := sub32 a (rot c 4) in
  let b := Z.lxor b a in let b := sub32 b (rot a 14) in
  let c := Z.lxor c b in let c := sub32 c (rot b 24) in
  (a, b, c).

Section hash.
(** The branch of tommy_le_uint32_read that is compiled. *)
Variable x86 : bool.

(** tommyhash.c:76-85 and 126-135: the while loop over full 12 byte blocks.
    Returns the variables, the advanced key pointer and the rest length. *)
Fixpoint hash_loop (fuel : nat) (abc : Z * Z * Z) (key key_len : Z) : M (Z * Z * Z * Z * Z) :=
  let '(a, b, c) := abc in
  if decide (key_len > 12) then
    match fuel with
    | O => fuel_out
    | S fuel =>
        r0 ← le_uint32_read x86 (key + 0);
        r4 ← le_uint32_read x86 (key + 4);
        r8 ← le_uint32_read x86 (key + 8);
        hash_loop fuel (mix (add32 a r0, add32 b r4, add32 c r8)) (key + 12) (sub64 key_len 12)
    end
  else mret (a, b, c, key, key_len).

(** tommyhash.c:90-111 and 140-161: the switch on the length of the last
    block.  Each entry of the fallthrough chain is one definition. *)
Definition case_1 (key : Z) (abc : Z * Z * Z) : M (Z * Z * Z) :=
  let '(a, b, c) := abc in k ← loadb (key + 0); mret (add32 a k, b, c).
Definition case_2 (key : Z) (abc : Z * Z * Z) : M (Z * Z * Z) :=
  let '(a, b, c) := abc in k ← loadb (key + 1); case_1 key (add32 a (shl32 k 8), b, c).
Definition case_3 (key : Z) (abc : Z * Z * Z) : M (Z * Z * Z) :=
  let '(a, b, c) := abc in k ← loadb (key + 2); case_2 key (add32 a (shl32 k 16), b, c).
Definition case_4 (key : Z) (abc : Z * Z * Z) : M (Z * Z * Z) :=
  let '(a, b, c) := abc in r ← le_uint32_read x86 (key + 0); mret (add32 a r, b, c).
Definition case_5 (key : Z) (abc : Z * Z * Z) : M (Z * Z * Z) :=
  let '(a, b, c) := abc in k ← loadb (key + 4); case_4 key (a, add32 b k, c).
Definition case_6 (key : Z) (abc : Z * Z * Z) : M (Z * Z * Z) :=
  let '(a, b, c) := abc in k ← loadb (key + 5); case_5 key (a, add32 b (shl32 k 8), c).
Definition case_7 (key : Z) (abc : Z * Z * Z) : M (Z * Z * Z) :=
  let '(a, b, c) := abc in k ← loadb (key + 6); case_6 key (a, add32 b (shl32 k 16), c).
Definition case_8 (key : Z) (abc : Z * Z * Z) : M (Z * Z * Z) :=
  let '(a, b, c) := abc in
  r4 ← le_uint32_read x86 (key + 4);
  r0 ← le_uint32_read x86 (key + 0);
  mret (add32 a r0, add32 b r4, c).
Definition case_9 (key : Z) (abc : Z * Z * Z) : M (Z * Z * Z) :=
  let '(a, b, c) := abc in k ← loadb (key + 8); case_8 key (a, b, add32 c k).
Definition case_10 (key : Z) (abc : Z * Z * Z) : M (Z * Z * Z) :=
  let '(a, b, c) := abc in k ← loadb (key + 9); case_9 key (a, b, add32 c (shl32 k 8)).
Definition case_11 (key : Z) (abc : Z * Z * Z) : M (Z * Z * Z) :=
  let '(a, b, c) := abc in k ← loadb (key + 10); case_10 key (a, b, add32 c (shl32 k 16)).
Definition case_12 (key : Z) (abc : Z * Z * Z) : M (Z * Z * Z) :=
  let '(a, b, c) := abc in
  r8 ← le_uint32_read x86 (key + 8);
  r4 ← le_uint32_read x86 (key + 4);
  r0 ← le_uint32_read x86 (key + 0);
  mret (add32 a r0, add32 b r4, add32 c r8).

Definition hash_switch (abc : Z * Z * Z) (key key_len : Z) : M (Z * Z * Z) :=
  if decide (key_len = 12) then case_12 key abc
  else if decide (key_len = 11) then case_11 key abc
  else if decide (key_len = 10) then case_10 key abc
  else if decide (key_len = 9) then case_9 key abc
  else if decide (key_len = 8) then case_8 key abc
  else if decide (key_len = 7) then case_7 key abc
  else if decide (key_len = 6) then case_6 key abc
  else if decide (key_len = 5) then case_5 key abc
  else if decide (key_len = 4) then case_4 key abc
  else if decide (key_len = 3) then case_3 key abc
  else if decide (key_len = 2) then case_2 key abc
  else if decide (key_len = 1) then case_1 key abc
  else mret abc.

(** tommyhash.c:69-116 tommy_hash_u32 *)
Definition hash_u32 (fuel : nat) (init_val key key_len : Z) : M Z :=
  let a := add32 (add32 0xdeadbeef (wrap32 key_len)) init_val in
  '(a, b, c, key, key_len) ← hash_loop fuel (a, a, a) key key_len;
  if decide (key_len = 0) then mret c else
  abc ← hash_switch (a, b, c) key key_len;
  let '(a, b, c) := final abc in
  mret c.

(** tommyhash.c:118-166 tommy_hash_u64 *)
Definition hash_u64 (fuel : nat) (init_val key key_len : Z) : M Z :=
  (* the sum is computed with 64 bits and truncated by the assignment *)
  let a := wrap32 (add64 (add32 0xdeadbeef (wrap32 key_len)) (Z.land init_val 0xffffffff)) in
  let c := wrap32 (add64 a (shr init_val 32)) in
  '(a, b, c, key, key_len) ← hash_loop fuel (a, a, c) key key_len;
  if decide (key_len = 0) then mret (add64 c (shl64 b 32)) else
  abc ← hash_switch (a, b, c) key key_len;
  let '(a, b, c) := final abc in
  mret (add64 c (shl64 b 32)).

(** tommyhash.c:168-240: the bytes of [v] before its first zero byte added to
    one of the variables (lines 181-188, 198-205, 215-222) *)
Definition strhash_tail (x v : Z) : Z :=
  if decide (Z.land v 0xff ≠ 0) then
    let x := add32 x (Z.land v 0xff) in
    if decide (Z.land v 0xff00 ≠ 0) then
      let x := add32 x (Z.land v 0xff00) in
      if decide (Z.land v 0xff0000 ≠ 0) then
        add32 x (Z.land v 0xff0000)
      else x
    else x
  else x.

(** tommyhash.c:177-232: the endless loop of tommy_strhash_u32 *)
Fixpoint strhash_loop (fuel : nat) (abc : Z * Z * Z) (key : Z) : M (Z * Z * Z) :=
  match fuel with
  | O => fuel_out
  | S fuel =>
      let '(a, b, c) := abc in
      v ← le_uint32_read x86 key;
      if haszero_u32 v then mret (strhash_tail a v, b, c) else
      let a := add32 a v in
      v ← le_uint32_read x86 (key + 4);
      if haszero_u32 v then mret (a, strhash_tail b v, c) else
      let b := add32 b v in
      v ← le_uint32_read x86 (key + 8);
      if haszero_u32 v then mret (a, b, strhash_tail c v) else
      let c := add32 c v in
      strhash_loop fuel (mix (a, b, c)) (key + 12)
  end.

(** tommyhash.c:168-240 tommy_strhash_u32 *)
Definition strhash_u32 (fuel : nat) (init_val key : Z) : M Z :=
  let a := wrap32 (add64 0xdeadbeef init_val) in
  abc ← strhash_loop fuel (a, a, a) key;
  let '(a, b, c) := final abc in
  mret c.

End hash.

(** tommyhash.h:103-114 tommy_inthash_u32 *)
Definition inthash_u32 (key : Z) : Z :=
  let key := sub32 key (shl32 key 6) in
  let key := Z.lxor key (shr key 17) in
  let key := sub32 key (shl32 key 9) in
  let key := Z.lxor key (shl32 key 4) in
  let key := sub32 key (shl32 key 3) in
  let key := Z.lxor key (shl32 key 10) in
  let key := Z.lxor key (shr key 15) in
  key.

(** tommyhash.h:121-132 tommy_inthash_u64 *)
Definition inthash_u64 (key : Z) : Z :=
  let key := add64 (not64 key) (shl64 key 21) in
  let key := Z.lxor key (shr key 24) in
  let key := add64 (add64 key (shl64 key 3)) (shl64 key 8) in
  let key := Z.lxor key (shr key 14) in
  let key := add64 (add64 key (shl64 key 2)) (shl64 key 4) in
  let key := Z.lxor key (shr key 28) in
  let key := add64 key (shl64 key 31) in
  key.
