(** * Properties C40 - C49 and C62: hash functions and bit functions *)
From Verif Require Import HashProof HashVectors HashMix.
Global Open Scope Z_scope.

(** ** C40 *)
Theorem C40_inthash_u32_bijective :
  (forall x, 0 <= x < 2 ^ 32 -> 0 <= inthash_u32 x < 2 ^ 32) /\
  (forall x y, 0 <= x < 2 ^ 32 -> 0 <= y < 2 ^ 32 -> inthash_u32 x = inthash_u32 y -> x = y) /\
  (forall y, 0 <= y < 2 ^ 32 -> exists x, 0 <= x < 2 ^ 32 /\ inthash_u32 x = y).
Proof. exact (bij_explicit _ _ inthash_u32_bij). Qed.
Print Assumptions C40_inthash_u32_bijective.
Example C40_case : inthash_u32 1 <> inthash_u32 2 /\ inthash_u32 0xffffffff = 3582354520.
Proof. vm_compute. split; [discriminate|reflexivity]. Qed.
(** The project's own test vectors, copied from check.c. *)
Example C40_check_vectors : inthash_u32 <$> check_inthash32.*1 = check_inthash32.*2.
Proof. exact check_inthash32_ok. Qed.

(** ** C41 *)
Theorem C41_inthash_u64_bijective :
  (forall x, 0 <= x < 2 ^ 64 -> 0 <= inthash_u64 x < 2 ^ 64) /\
  (forall x y, 0 <= x < 2 ^ 64 -> 0 <= y < 2 ^ 64 -> inthash_u64 x = inthash_u64 y -> x = y) /\
  (forall y, 0 <= y < 2 ^ 64 -> exists x, 0 <= x < 2 ^ 64 /\ inthash_u64 x = y).
Proof. exact (bij_explicit _ _ inthash_u64_bij). Qed.
Print Assumptions C41_inthash_u64_bijective.
Example C41_case : inthash_u64 1 = 6614235796240398542.
Proof. vm_compute. reflexivity. Qed.
Example C41_check_vectors : inthash_u64 <$> check_inthash64.*1 = check_inthash64.*2.
Proof. exact check_inthash64_ok. Qed.

(** ** C42: for every memory [m] that holds the key bytes (it may hold nothing
    else: a read outside the key would then be undefined behaviour) the result
    is lookup3 of the key, memory is unchanged.  [fuel] bounds the number of
    loop iterations: the loop terminates.  [x86] says which branch of the
    32-bit little endian read is compiled. *)
Theorem C42_hash_u32_is_lookup3 :
  forall (x86 : bool) (m : mem) (key : Z) (bs : list Z) (init_val : Z) (fuel : nat),
    bytes_at m key bs -> Forall (fun b => 0 <= b < 256) bs -> Z.of_nat (length bs) < 2 ^ 64 ->
    0 <= init_val < 2 ^ 32 -> (length bs <= 12 * fuel + 12)%nat ->
    hash_u32 x86 fuel init_val key (Z.of_nat (length bs)) m = Ok (hashlittle init_val bs) m.
Proof. exact hash_u32_ok. Qed.
Print Assumptions C42_hash_u32_is_lookup3.

Theorem C42_hash_u64_is_lookup3 :
  forall (x86 : bool) (m : mem) (key : Z) (bs : list Z) (init_val : Z) (fuel : nat),
    bytes_at m key bs -> Forall (fun b => 0 <= b < 256) bs -> Z.of_nat (length bs) < 2 ^ 64 ->
    0 <= init_val < 2 ^ 64 -> (length bs <= 12 * fuel + 12)%nat ->
    hash_u64 x86 fuel init_val key (Z.of_nat (length bs)) m = Ok (hashlittle2 init_val bs) m.
Proof. exact hash_u64_ok. Qed.
Print Assumptions C42_hash_u64_is_lookup3.

(** Both branches of the 32-bit little endian read agree. *)
Theorem C42_read_branches_agree :
  forall (m : mem) (ptr b0 b1 b2 b3 : Z),
    0 <= b0 < 256 -> 0 <= b1 < 256 -> 0 <= b2 < 256 -> 0 <= b3 < 256 ->
    bytes_at m ptr [b0; b1; b2; b3] ->
    le_uint32_read true ptr m = le_uint32_read false ptr m /\
    forall x86, le_uint32_read x86 ptr m = Ok (b0 + 2 ^ 8 * b1 + 2 ^ 16 * b2 + 2 ^ 24 * b3) m.
Proof. exact le_read_branches. Qed.
Print Assumptions C42_read_branches_agree.

Example C42_case :
  hash_u32 true 2 0 0x1001 30 (bytes_mem 0x1001 four_score) = Ok 0x17770551 (bytes_mem 0x1001 four_score) /\
  hash_u64 false 2 1 0x1001 30 (bytes_mem 0x1001 four_score) = Ok 0x6cbea4b3cd628161 (bytes_mem 0x1001 four_score).
Proof. vm_compute. split; reflexivity. Qed.
Example C42_check_vectors :
  (forall x86, check_hash32_results x86 = (fun v => Some v.2) <$> check_hash32) /\
  (forall x86, check_hash64_results x86 = (fun v => Some v.2) <$> check_hash64).
Proof. exact (conj check_hash32_ok check_hash64_ok). Qed.

(** ** C43 *)
Theorem C43_hash_u64_low_half :
  forall (x86 : bool) (m : mem) (key : Z) (bs : list Z) (init_val : Z) (fuel : nat),
    bytes_at m key bs -> Forall (fun b => 0 <= b < 256) bs -> Z.of_nat (length bs) < 2 ^ 64 ->
    0 <= init_val < 2 ^ 32 -> (length bs <= 12 * fuel + 12)%nat ->
    exists h32 h64,
      hash_u32 x86 fuel init_val key (Z.of_nat (length bs)) m = Ok h32 m /\
      hash_u64 x86 fuel init_val key (Z.of_nat (length bs)) m = Ok h64 m /\
      h64 mod 2 ^ 32 = h32.
Proof. exact hash_low_half. Qed.
Print Assumptions C43_hash_u64_low_half.
Example C43_case :
  hash_u32 true 0 5 16 3 (bytes_mem 16 [97; 98; 99]) = Ok 930346536 (bytes_mem 16 [97; 98; 99]) /\
  hash_u64 false 0 5 16 3 (bytes_mem 16 [97; 98; 99]) = Ok (930346536 + 2 ^ 32 * 1045143376) (bytes_mem 16 [97; 98; 99]).
Proof. vm_compute. split; reflexivity. Qed.

(** ** C44: the result is a function of [init_val] and of the bytes [s] of the
    string only; [junk] is whatever follows the terminator.  The last
    hypothesis on lengths says that the 4 byte group holding the terminator is
    readable (see C45). *)
Theorem C44_strhash_only_string :
  forall (x86 : bool) (m : mem) (key : Z) (s junk : list Z) (init_val : Z) (fuel : nat),
    bytes_at m key (s ++ [0] ++ junk) ->
    Forall (fun b => 0 <= b < 256) (s ++ [0] ++ junk) -> Forall (fun b => b <> 0) s ->
    (4 * (length s / 4 + 1) <= length (s ++ [0%Z] ++ junk))%nat ->
    0 <= init_val < 2 ^ 64 -> (length s / 12 < fuel)%nat ->
    strhash_u32 x86 fuel init_val key m = Ok (strhash_spec init_val s) m.
Proof. exact strhash_ok. Qed.
Print Assumptions C44_strhash_only_string.
Example C44_case :
  let s := [116; 111; 109; 109; 121; 100; 115; 45; 108; 105; 98; 114; 97] in
  strhash_u32 true 2 7 97 (bytes_mem 97 (s ++ [0; 7; 0])) = Ok (strhash_spec 7 s) (bytes_mem 97 (s ++ [0; 7; 0])) /\
  strhash_u32 false 2 7 64 (bytes_mem 64 (s ++ [0; 1; 2])) = Ok (strhash_spec 7 s) (bytes_mem 64 (s ++ [0; 1; 2])).
Proof. vm_compute. split; reflexivity. Qed.
Example C44_check_vectors : forall x86,
  check_strhash32_results x86 = (fun v => Some v.2) <$> check_strhash32.
Proof. exact check_strhash32_ok. Qed.

(** ** C45 is false: hashing the empty string held in a one byte object reads
    the three bytes after it. *)
Theorem C45_strhash_reads_only_string_refuted :
  exists (m : mem) (key : Z) (s : list Z),
    bytes_at m key (s ++ [0]) /\ Forall (fun b => 0 < b < 256) s /\
    forall x86 fuel init_val, (0 < fuel)%nat -> strhash_u32 x86 fuel init_val key m = UB.
Proof. exact strhash_overread. Qed.
Print Assumptions C45_strhash_reads_only_string_refuted.

(** What holds: the terminator and at most three more bytes suffice, in the
    same 4 byte group counted from the start of the string. *)
Theorem C45_strhash_overread_at_most_3_partial :
  forall (x86 : bool) (m : mem) (key : Z) (s junk : list Z) (init_val : Z) (fuel : nat),
    bytes_at m key (s ++ [0] ++ junk) ->
    Forall (fun b => 0 <= b < 256) (s ++ [0] ++ junk) -> Forall (fun b => b <> 0) s ->
    Z.of_nat (length junk) = 3 - Z.of_nat (length s) mod 4 ->
    0 <= init_val < 2 ^ 64 -> (length s / 12 < fuel)%nat ->
    exists h, strhash_u32 x86 fuel init_val key m = Ok h m.
Proof. exact strhash_overread_3. Qed.
Print Assumptions C45_strhash_overread_at_most_3_partial.

(** The over-read is exact: when the object ends before the last byte of that
    group, and the byte after the object is not readable, the function has
    undefined behaviour.  So C45 holds for the strings whose length is 3 modulo
    4, and for no other string that ends its object. *)
Theorem C45_strhash_overread_exact :
  forall (x86 : bool) (m : mem) (key : Z) (s junk : list Z) (init_val : Z) (fuel : nat),
    bytes_at m key (s ++ [0] ++ junk) ->
    Forall (fun b => 0 <= b < 256) (s ++ [0] ++ junk) -> Forall (fun b => b <> 0) s ->
    Z.of_nat (length junk) < 3 - Z.of_nat (length s) mod 4 ->
    m !! (key + Z.of_nat (length (s ++ [0] ++ junk))) = None -> (length s / 12 < fuel)%nat ->
    strhash_u32 x86 fuel init_val key m = UB.
Proof. exact strhash_ub. Qed.
Print Assumptions C45_strhash_overread_exact.
Example C45_exact_case :
  strhash_u32 true 2 0 16 (bytes_mem 16 [49; 50; 51; 52; 53; 54; 55; 56; 57; 48; 49; 50; 51; 0]) = UB /\
  strhash_u32 false 1 0 16 (bytes_mem 16 [49; 50; 0; 9]) <> UB /\
  strhash_u32 false 1 0 16 (bytes_mem 16 [49; 50; 0]) = UB /\
  strhash_u32 true 1 0 16 (bytes_mem 16 [49; 50; 51; 0]) <> UB.
Proof. vm_compute. repeat split; discriminate. Qed.
Example C45_case : strhash_u32 true 1 0 16 (bytes_mem 16 [0; 1; 2; 3]) = Ok 834184464 (bytes_mem 16 [0; 1; 2; 3]).
Proof. vm_compute. reflexivity. Qed.

(** ** C46 *)
Theorem C46_ilog2_u32 :
  forall v, 0 < v < 2 ^ 32 ->
    let k := ilog2_u32_portable v in
    0 <= k /\ Z.testbit v k = true /\ (forall i, k < i -> Z.testbit v i = false) /\
    ilog2_u32_gnuc v = k.
Proof. exact ilog2_u32_correct. Qed.
Print Assumptions C46_ilog2_u32.
Theorem C46_ilog2_u64 :
  forall v, 0 < v < 2 ^ 64 ->
    let k := ilog2_u64_portable v in
    0 <= k /\ Z.testbit v k = true /\ (forall i, k < i -> Z.testbit v i = false) /\
    ilog2_u64_gnuc v = k.
Proof. exact ilog2_u64_correct. Qed.
Print Assumptions C46_ilog2_u64.
Example C46_case : ilog2_u64_portable 0x123456789abcdef = 56 /\ ilog2_u32_portable 0x80000000 = 31.
Proof. vm_compute. split; reflexivity. Qed.

(** ** C47 *)
Theorem C47_ctz_u32 :
  forall v, 0 < v < 2 ^ 32 ->
    let k := ctz_u32_portable v in
    0 <= k /\ Z.testbit v k = true /\ (forall i, 0 <= i < k -> Z.testbit v i = false) /\
    ctz_u32_gnuc v = k.
Proof. exact ctz_u32_correct. Qed.
Print Assumptions C47_ctz_u32.
Theorem C47_ctz_u64 :
  forall v, 0 < v < 2 ^ 64 ->
    let k := ctz_u64_portable v in
    0 <= k /\ Z.testbit v k = true /\ (forall i, 0 <= i < k -> Z.testbit v i = false) /\
    ctz_u64_gnuc v = k.
Proof. exact ctz_u64_correct. Qed.
Print Assumptions C47_ctz_u64.
Example C47_case : ctz_u64_portable 0x500000000000 = 44 /\ ctz_u32_portable 0x80000000 = 31.
Proof. vm_compute. split; reflexivity. Qed.

(** ** C48 *)
Theorem C48_roundup_pow2_u32 :
  forall v, 1 <= v <= 2 ^ 31 ->
    exists k, 0 <= k /\ roundup_pow2_u32 v = 2 ^ k /\ v <= 2 ^ k /\
      (forall j, 0 <= j -> v <= 2 ^ j -> 2 ^ k <= 2 ^ j).
Proof. exact roundup_u32_correct. Qed.
Print Assumptions C48_roundup_pow2_u32.
Theorem C48_roundup_pow2_u64 :
  forall v, 1 <= v <= 2 ^ 63 ->
    exists k, 0 <= k /\ roundup_pow2_u64 v = 2 ^ k /\ v <= 2 ^ k /\
      (forall j, 0 <= j -> v <= 2 ^ j -> 2 ^ k <= 2 ^ j).
Proof. exact roundup_u64_correct. Qed.
Print Assumptions C48_roundup_pow2_u64.
Example C48_case : roundup_pow2_u32 17 = 32 /\ roundup_pow2_u64 (2 ^ 40 + 1) = 2 ^ 41.
Proof. vm_compute. split; reflexivity. Qed.

(** ** C49 *)
Theorem C49_haszero_exact :
  forall v, 0 <= v < 2 ^ 32 ->
    (haszero_u32 v = true <-> exists i, 0 <= i < 4 /\ (v / 2 ^ (8 * i)) mod 2 ^ 8 = 0).
Proof. exact haszero_correct. Qed.
Print Assumptions C49_haszero_exact.
Example C49_case : haszero_u32 0x01000180 = true /\ haszero_u32 0x01800180 = false.
Proof. vm_compute. split; reflexivity. Qed.

(** ** C62: the mixing loses nothing *)

(** tommy_mix and tommy_final are one-to-one on triples of 32-bit words
    ([u32x3]), and onto. *)
Theorem C62_mix_bijective :
  (forall s, u32x3 s -> u32x3 (mix s)) /\
  (forall s1 s2, u32x3 s1 -> u32x3 s2 -> mix s1 = mix s2 -> s1 = s2) /\
  (forall t, u32x3 t -> exists s, u32x3 s /\ mix s = t).
Proof. exact mix_bij. Qed.
Print Assumptions C62_mix_bijective.
Theorem C62_final_bijective :
  (forall s, u32x3 s -> u32x3 (final s)) /\
  (forall s1 s2, u32x3 s1 -> u32x3 s2 -> final s1 = final s2 -> s1 = s2) /\
  (forall t, u32x3 t -> exists s, u32x3 s /\ final s = t).
Proof. exact final_bij. Qed.
Print Assumptions C62_final_bijective.
(** Two keys of the same length that differ within one block of 12 bytes leave
    lookup3 in different states; the hash functions return one or two of its
    three words (C42). *)
Theorem C62_one_block : forall k1 k2 i s,
  Forall (fun b => 0 <= b < 256) k1 -> Forall (fun b => 0 <= b < 256) k2 ->
  length k1 = length k2 -> k1 <> k2 ->
  (forall j, (j / 12)%nat <> i -> k1 !! j = k2 !! j) -> u32x3 s ->
  lookup3_core k1 s <> lookup3_core k2 s.
Proof. exact one_block_state. Qed.
Print Assumptions C62_one_block.
Example C62_case : u32x3 (0, 0, 1) /\ final (0, 0, 1) = (3174187776, 3054341061, 4029311561) /\
  mix (1, 2, 3) <> mix (1, 2, 4).
Proof. exact mix_example. Qed.
(** Two keys of 30 bytes that differ in byte 13 *)
Example C62_block_case : Forall (fun b => 0 <= b < 256) four_score /\ Forall (fun b => 0 <= b < 256) other_score /\
  four_score <> other_score /\ forall j, (j / 12)%nat <> 1%nat -> four_score !! j = other_score !! j.
Proof. exact one_block_example. Qed.
