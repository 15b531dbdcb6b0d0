(** * The bit functions of tommytypes.h as compiled by MSVC, and TOMMY_ILOG2 *)
From Verif Require Export HashProof.
Global Open Scope Z_scope.

(** _BitScanReverse and _BitScanReverse64 (meaning given by the compiler
    manual): search from the most significant bit, [n] bits to go; [None]: no bit
    is set, and the index is not written. *)
Fixpoint bit_scan_reverse (n : nat) (value : Z) : option Z :=
  match n with
  | O => None
  | S n => if Z.testbit value (Z.of_nat n) then Some (Z.of_nat n) else bit_scan_reverse n value
  end.

(** _BitScanForward and _BitScanForward64: search from the bit [i] up. *)
Fixpoint bit_scan_forward (n : nat) (i : Z) (value : Z) : option Z :=
  match n with
  | O => None
  | S n => if Z.testbit value i then Some i else bit_scan_forward n (i + 1) value
  end.

(** Reading the variable [count], which is uninitialised if it was not written *)
Definition read_count (o : option Z) : M Z := match o with Some k => mret k | None => ub end.

(** tommytypes.h:350-353 tommy_ilog2_u32, _MSC_VER branch *)
Definition ilog2_u32_msvc (value : Z) : M Z := read_count (bit_scan_reverse 32 value).
(** tommytypes.h:389-392 tommy_ilog2_u64, _MSC_VER branch *)
Definition ilog2_u64_msvc (value : Z) : M Z := read_count (bit_scan_reverse 64 value).
(** tommytypes.h:416-419 tommy_ctz_u32, _MSC_VER branch *)
Definition ctz_u32_msvc (value : Z) : M Z := read_count (bit_scan_forward 32 0 value).
(** tommytypes.h:440-443 tommy_ctz_u64, _MSC_VER branch *)
Definition ctz_u64_msvc (value : Z) : M Z := read_count (bit_scan_forward 64 0 value).

(** tommytypes.h:328 TOMMY_ILOG2 *)
Definition TOMMY_ILOG2 (value : Z) : Z :=
  if decide (value = 256) then 8 else if decide (value = 128) then 7 else
  if decide (value = 64) then 6 else if decide (value = 32) then 5 else
  if decide (value = 16) then 4 else if decide (value = 8) then 3 else
  if decide (value = 4) then 2 else if decide (value = 2) then 1 else 0.

Lemma scan_reverse_top n v k : 0 ≤ k < Z.of_nat n → Z.testbit v k = true →
  (∀ i, k < i → Z.testbit v i = false) → bit_scan_reverse n v = Some k.
Proof.
  intros Hk Ht Hno. induction n as [|n IH]; [lia|]. simpl.
  destruct (decide (k = Z.of_nat n)) as [->|Hne]; [by rewrite Ht|].
  rewrite Hno; [lia|]. apply IH. lia.
Qed.
Lemma scan_forward_first n i v k : i ≤ k < i + Z.of_nat n → Z.testbit v k = true →
  (∀ j, i ≤ j < k → Z.testbit v j = false) → bit_scan_forward n i v = Some k.
Proof.
  revert i. induction n as [|n IH]; intros i Hk Ht Hno; [lia|]. simpl.
  destruct (decide (k = i)) as [->|Hne]; [by rewrite Ht|].
  rewrite Hno; [lia|]. apply IH; [lia|done|]. intros j Hj. apply Hno. lia.
Qed.

Lemma bit_below n v k : 0 < v < 2 ^ n → 0 ≤ n → 0 ≤ k → Z.testbit v k = true → k < n.
Proof.
  intros Hv Hn Hk Ht. destruct (Z_lt_le_dec k n) as [|Hle]; [done|].
  assert (Hl : Z.log2 v < n) by (apply Z.log2_lt_pow2; lia).
  by rewrite (Z.bits_above_log2 v k ltac:(lia) ltac:(lia)) in Ht.
Qed.

Lemma ilog2_u32_msvc_ok v m : 0 < v < 2 ^ 32 → ilog2_u32_msvc v m = Ok (ilog2_u32_portable v) m.
Proof.
  intros Hv. destruct (ilog2_u32_correct v Hv) as (H0 & H1 & H2 & _). rewrite /ilog2_u32_msvc.
  pose proof (bit_below 32 v _ Hv ltac:(lia) H0 H1). by rewrite (scan_reverse_top 32 v (ilog2_u32_portable v)).
Qed.
Lemma ilog2_u64_msvc_ok v m : 0 < v < 2 ^ 64 → ilog2_u64_msvc v m = Ok (ilog2_u64_portable v) m.
Proof.
  intros Hv. destruct (ilog2_u64_correct v Hv) as (H0 & H1 & H2 & _). rewrite /ilog2_u64_msvc.
  pose proof (bit_below 64 v _ Hv ltac:(lia) H0 H1). by rewrite (scan_reverse_top 64 v (ilog2_u64_portable v)).
Qed.
Lemma ctz_u32_msvc_ok v m : 0 < v < 2 ^ 32 → ctz_u32_msvc v m = Ok (ctz_u32_portable v) m.
Proof.
  intros Hv. destruct (ctz_u32_correct v Hv) as (H0 & H1 & H2 & _). rewrite /ctz_u32_msvc.
  pose proof (bit_below 32 v _ Hv ltac:(lia) H0 H1). by rewrite (scan_forward_first 32 0 v (ctz_u32_portable v)).
Qed.
Lemma ctz_u64_msvc_ok v m : 0 < v < 2 ^ 64 → ctz_u64_msvc v m = Ok (ctz_u64_portable v) m.
Proof.
  intros Hv. destruct (ctz_u64_correct v Hv) as (H0 & H1 & H2 & _). rewrite /ctz_u64_msvc.
  pose proof (bit_below 64 v _ Hv ltac:(lia) H0 H1). by rewrite (scan_forward_first 64 0 v (ctz_u64_portable v)).
Qed.

Lemma TOMMY_ILOG2_ok k : 0 ≤ k ≤ 8 → TOMMY_ILOG2 (2 ^ k) = k.
Proof.
  intros Hk. assert (Hin : k ∈ [0; 1; 2; 3; 4; 5; 6; 7; 8]) by (rewrite !elem_of_cons; lia).
  revert k Hin Hk. refine (proj1 (Forall_forall _ _) _). repeat constructor.
Qed.
