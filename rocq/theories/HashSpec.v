(** * Specification of the hash functions, independent of the model.

    Bob Jenkins' lookup3 (http://burtleburtle.net/bob/c/lookup3.c), on the
    mathematical integers, on a list of bytes. *)
From Coq Require Import ZArith List.
Import ListNotations.
Open Scope Z_scope.

Definition word := Z.   (* 0 <= w < 2^32 *)

(** Rotation to the left of a 32-bit word. *)
Definition rotl (x k : Z) : Z := (x * 2 ^ k) mod 2 ^ 32 + x / 2 ^ (32 - k).

(** One line of lookup3's mix: [x -= z; x ^= rotl z k; z += y]. *)
Definition mix_line (x y z k : Z) : Z * Z :=
  (Z.lxor ((x - z) mod 2 ^ 32) (rotl z k), (z + y) mod 2 ^ 32).

Definition lookup3_mix (s : Z * Z * Z) : Z * Z * Z :=
  let '(a, b, c) := s in
  let '(a, c) := mix_line a b c 4 in
  let '(b, a) := mix_line b c a 6 in
  let '(c, b) := mix_line c a b 8 in
  let '(a, c) := mix_line a b c 16 in
  let '(b, a) := mix_line b c a 19 in
  let '(c, b) := mix_line c a b 4 in
  (a, b, c).

(** One line of lookup3's final: [x ^= y; x -= rotl y k]. *)
Definition final_line (x y k : Z) : Z := (Z.lxor x y - rotl y k) mod 2 ^ 32.

Definition lookup3_final (s : Z * Z * Z) : Z * Z * Z :=
  let '(a, b, c) := s in
  let c := final_line c b 14 in
  let a := final_line a c 11 in
  let b := final_line b a 25 in
  let c := final_line c b 16 in
  let a := final_line a c 4 in
  let b := final_line b a 14 in
  let c := final_line c b 24 in
  (a, b, c).

(** Byte [i] of the key, the key being extended with zeros. *)
Definition byte_at (key : list Z) (i : nat) : Z := nth i key 0.

(** Little endian 32-bit word [i] of the zero extended key. *)
Definition word_at (key : list Z) (i : nat) : Z :=
  byte_at key (4 * i) + 2 ^ 8 * byte_at key (4 * i + 1) +
  2 ^ 16 * byte_at key (4 * i + 2) + 2 ^ 24 * byte_at key (4 * i + 3).

(** Addition of the [k]-th 12 byte block of the zero extended key. *)
Definition add_block (key : list Z) (s : Z * Z * Z) (k : nat) : Z * Z * Z :=
  let '(a, b, c) := s in
  ((a + word_at key (3 * k)) mod 2 ^ 32,
   (b + word_at key (3 * k + 1)) mod 2 ^ 32,
   (c + word_at key (3 * k + 2)) mod 2 ^ 32).

(** State after mixing the first [n] blocks. *)
Definition mix_blocks (key : list Z) (n : nat) (s : Z * Z * Z) : Z * Z * Z :=
  fold_left (fun s k => lookup3_mix (add_block key s k)) (seq 0 n) s.

(** All blocks but the last non-empty one are mixed; the last is finalised. *)
Definition lookup3_core (key : list Z) (s : Z * Z * Z) : Z * Z * Z :=
  match key with
  | [] => s
  | _ => let n := Nat.div (length key - 1) 12 in
         lookup3_final (add_block key (mix_blocks key n s) n)
  end.

(** hashlittle(key, length, initval) *)
Definition hashlittle (initval : Z) (key : list Z) : Z :=
  let x := (0xdeadbeef + Z.of_nat (length key) + initval) mod 2 ^ 32 in
  let '(a, b, c) := lookup3_core key (x, x, x) in c.

(** hashlittle2(key, length, pc, pb) with *pc and *pb packed in one 64-bit
    value: low half pc, high half pb; both for the seed and for the result. *)
Definition hashlittle2 (initval : Z) (key : list Z) : Z :=
  let pc := initval mod 2 ^ 32 in
  let pb := initval / 2 ^ 32 in
  let x := (0xdeadbeef + Z.of_nat (length key) + pc) mod 2 ^ 32 in
  let '(a, b, c) := lookup3_core key (x, x, (x + pb) mod 2 ^ 32) in
  c + 2 ^ 32 * b.

(** The string variant of tommyds: the length is not used, all complete blocks
    are mixed, the zero padded incomplete block (possibly empty) is
    finalised. *)
Definition strhash_spec (initval : Z) (s : list Z) : Z :=
  let x := (0xdeadbeef + initval) mod 2 ^ 32 in
  let n := Nat.div (length s) 12 in
  let '(a, b, c) := lookup3_final (add_block s (mix_blocks s n (x, x, x)) n) in c.

(** Check against the published test vectors (lookup3.c, driver5). *)
Definition four_score : list Z :=
  [70; 111; 117; 114; 32; 115; 99; 111; 114; 101; 32; 97; 110; 100; 32;
   115; 101; 118; 101; 110; 32; 121; 101; 97; 114; 115; 32; 97; 103; 111].
Example hashlittle_vector_0 : hashlittle 0 four_score = 0x17770551.
Proof. vm_compute. reflexivity. Qed.
Example hashlittle_vector_1 : hashlittle 1 four_score = 0xcd628161.
Proof. vm_compute. reflexivity. Qed.
Example hashlittle2_vector_0 : hashlittle2 0 four_score = 0xce7226e617770551.
Proof. vm_compute. reflexivity. Qed.
Example hashlittle2_vector_1 : hashlittle2 1 four_score = 0x6cbea4b3cd628161.
Proof. vm_compute. reflexivity. Qed.
Example hashlittle2_vector_2 : hashlittle2 (2 ^ 32) four_score = 0xbd371de4e3607cae.
Proof. vm_compute. reflexivity. Qed.
Example hashlittle2_vector_3 : hashlittle2 0 [] = 0xdeadbeefdeadbeef.
Proof. vm_compute. reflexivity. Qed.
Example hashlittle2_vector_4 : hashlittle2 0xdeadbeef00000000 [] = 0xdeadbeefbd5b7dde.
Proof. vm_compute. reflexivity. Qed.
