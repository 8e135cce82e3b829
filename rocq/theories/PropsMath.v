(** * Properties C28-C31: the number theory behind RadersAlgorithm::new (src/math_utils.rs)

    u64 arithmetic with overflow panicking in [Debug] and wrapping in [Release]; [n as f32] and [sqrt] are the
    IEEE binary32 operations. *)
From Verif Require Import MathUtils Raders PropsMathProof.
From Coq Require Import NArith List Lia.
Import ListNotations.
Local Open Scope N_scope.

(** ** C28; the root returned is the smallest above 1 *)
Theorem C28_primitive_root : forall (m : profile) p, nprime p -> 3 <= p <= 2 ^ 32 ->
  exists r, primitive_root m p = Ok (Some r) /\ 1 < r < p /\ generator p r /\
    forall r', 1 < r' < r -> ~ generator p r'.
Proof. exact C28_proof. Qed.
Print Assumptions C28_primitive_root.
(** the two constants stored by RadersAlgorithm::new *)
Theorem C28_root_and_inverse : forall (m : profile) p, nprime (N.of_nat p) -> (3 <= p)%nat -> N.of_nat p <= 2 ^ 32 ->
  exists r s, raders_roots m p = Ok (r, s) /\ (r < p)%nat /\ (s < p)%nat /\ ((r * s) mod p = 1)%nat /\
    generator (N.of_nat p) (N.of_nat r) /\ generator (N.of_nat p) (N.of_nat s).
Proof. exact C28_inverse_proof. Qed.
Print Assumptions C28_root_and_inverse.
Example C28_case : nprime 4294967291 /\ 3 <= 4294967291 <= 2 ^ 32 /\ primitive_root Debug 4294967291 = Ok (Some 2) /\
  primitive_root Release 71 = Ok (Some 7).
Proof.
  split; [apply quick_prime; vm_compute; reflexivity|]. split; [split; discriminate|].
  split; vm_compute; reflexivity.
Qed.

(** ** C29: false for modulus 1 and exponent 0 only *)
Theorem C29_refuted : forall m : profile, exists base exponent modulo, base < modulo <= 2 ^ 32 /\ exponent < 2 ^ 64 /\
  modular_exponent m base exponent modulo <> Ok (base ^ exponent mod modulo).
Proof. exact C29_refuted_proof. Qed.
Print Assumptions C29_refuted.
(** missing from C29: modulo = 1 together with exponent = 0 *)
Theorem C29_modular_exponent_partial : forall (m : profile) base exponent modulo,
  base < modulo -> modulo <= 2 ^ 32 -> exponent < 2 ^ 64 -> modulo <> 1 \/ exponent <> 0 ->
  modular_exponent m base exponent modulo = Ok (base ^ exponent mod modulo).
Proof. exact C29_proof. Qed.
Print Assumptions C29_modular_exponent_partial.
Example C29_case : modular_exponent Debug 4294967290 4294967295 4294967291 = Ok 4294967290.
Proof. vm_compute. reflexivity. Qed.

(** ** C30: false for large n; always stops, and exact below 2^48 *)
Theorem C30_refuted : forall m : profile, exists n, 1 <= n < 2 ^ 64 /\
  exists x, ~ nprime x /\ distinct_prime_factors m n = Ok [x].
Proof. exact C30_refuted_proof. Qed.
Print Assumptions C30_refuted.
(** missing from C30: n >= 2^48 *)
Theorem C30_factors_partial : forall (m : profile) n, 1 <= n -> n < 2 ^ 48 ->
  exists l, distinct_prime_factors m n = Ok l /\ NoDup l /\ forall q, In q l <-> nprime q /\ (q | n).
Proof. exact factors_exact. Qed.
Print Assumptions C30_factors_partial.
Theorem C30_stops : forall (m : profile) n, 1 <= n -> n < 2 ^ 64 ->
  exists l, distinct_prime_factors m n = Ok l /\ forall q, nprime q -> (q | n) -> exists x, In x l /\ (q | x).
Proof. exact C30_terminates_proof. Qed.
Print Assumptions C30_stops.
(** on 0 (never passed by the library) the first loop does not end *)
Theorem C30_zero_hangs : forall m : profile, distinct_prime_factors m 0 = Hang.
Proof. exact C30_zero_proof. Qed.
Print Assumptions C30_zero_hangs.
Example C30_case : distinct_prime_factors Debug 4294967290 = Ok [2; 5; 19; 22605091] /\
  distinct_prime_factors Debug 65536 = Ok [2] /\ distinct_prime_factors Debug 9699690 = Ok [2; 3; 5; 7; 11; 13; 17; 19].
Proof. repeat split; vm_compute; reflexivity. Qed.

(** ** C31 is false: 4294967311 is the smallest prime above 2^32 *)
Theorem C31_refuted : exists p, nprime p /\ p < 2 ^ 64 /\ primitive_root Debug p = Panic /\
  exists r, primitive_root Release p = Ok (Some r) /\ 1 < r < p /\ ~ generator p r.
Proof. exact C31_refuted_proof. Qed.
Print Assumptions C31_refuted.
