(** * C46 and C47 for the branches compiled by MSVC *)
From Verif Require Import BitsMsvc.
Global Open Scope Z_scope.

(** The same bit as the portable branches (for which see [C46_ilog2_u32],
    [C46_ilog2_u64], [C47_ctz_u32] and [C47_ctz_u64]), without reading an
    uninitialised variable. *)
Theorem C46_ilog2_u32_msvc : forall v m, 0 < v < 2 ^ 32 -> ilog2_u32_msvc v m = Ok (ilog2_u32_portable v) m.
Proof. exact ilog2_u32_msvc_ok. Qed.
Print Assumptions C46_ilog2_u32_msvc.
Theorem C46_ilog2_u64_msvc : forall v m, 0 < v < 2 ^ 64 -> ilog2_u64_msvc v m = Ok (ilog2_u64_portable v) m.
Proof. exact ilog2_u64_msvc_ok. Qed.
Print Assumptions C46_ilog2_u64_msvc.
(** The macro for constants: exact powers of 2 up to 256. *)
Theorem C46_ilog2_constant : forall k, 0 <= k <= 8 -> TOMMY_ILOG2 (2 ^ k) = k.
Proof. exact TOMMY_ILOG2_ok. Qed.
Print Assumptions C46_ilog2_constant.
Theorem C47_ctz_u32_msvc : forall v m, 0 < v < 2 ^ 32 -> ctz_u32_msvc v m = Ok (ctz_u32_portable v) m.
Proof. exact ctz_u32_msvc_ok. Qed.
Print Assumptions C47_ctz_u32_msvc.
Theorem C47_ctz_u64_msvc : forall v m, 0 < v < 2 ^ 64 -> ctz_u64_msvc v m = Ok (ctz_u64_portable v) m.
Proof. exact ctz_u64_msvc_ok. Qed.
Print Assumptions C47_ctz_u64_msvc.

Example C46_msvc_case : ilog2_u64_msvc 0x123456789abcdef ∅ = Ok 56 ∅ /\ ilog2_u32_msvc 0x80000000 ∅ = Ok 31 ∅ /\
  ilog2_u32_msvc 0 ∅ = UB.
Proof. vm_compute. repeat split; reflexivity. Qed.
Example C47_msvc_case : ctz_u64_msvc 0x500000000000 ∅ = Ok 44 ∅ /\ ctz_u32_msvc 0x80000000 ∅ = Ok 31 ∅.
Proof. vm_compute. split; reflexivity. Qed.
