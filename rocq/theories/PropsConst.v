(** * Properties C32 and C33: the constant sqrt(1/2) baked into the twiddles of MixedRadix, 3xn, 5xn, 6xn

    [lib_root_half] (ConstSpec.v) is the value of T::from_f32(0.5f32.sqrt()), computed with Flocq's model of
    IEEE 754 single precision; the other operations are exact. *)
From Verif Require Import PropsConstProof.
From Coq Require Import Reals Lra Lia.
Local Open Scope R_scope.

(** ** C32: false.  At every size the error of one output exceeds 2^-26 sum|x[j]| on some input, 2^27 times
    the unit roundoff 2^-53 of f64 *)
Theorem C32_mixed_radix_refuted : forall dw dh, transforms dw dht_spec -> transforms dh dht_spec ->
  (2 <= dht_len dw)%nat -> (2 <= dht_len dh)%nat ->
  deviates lib_root_half (@mixed_radix R (RNum lib_root_half) dw dh) (/ 2 ^ 26).
Proof. exact C32_mixed_proof. Qed.
Print Assumptions C32_mixed_radix_refuted.
Theorem C32_3xn_refuted : forall d, transforms d dht_spec -> (2 <= dht_len d)%nat ->
  (dht_inplace_scratch d <= 3 * dht_len d)%nat -> dht_oop_scratch d = 0%nat ->
  deviates lib_root_half (@mixed_radix_3xn R (RNum lib_root_half) d) (/ 2 ^ 26).
Proof. exact C32_3_proof. Qed.
Print Assumptions C32_3xn_refuted.
Theorem C32_5xn_refuted : forall d, transforms d dht_spec -> (2 <= dht_len d)%nat ->
  (dht_inplace_scratch d <= 5 * dht_len d)%nat -> dht_oop_scratch d = 0%nat ->
  deviates lib_root_half (@mixed_radix_5xn R (RNum lib_root_half) d) (/ 2 ^ 26).
Proof. exact C32_5_proof. Qed.
Print Assumptions C32_5xn_refuted.
Theorem C32_6xn_refuted : forall d, transforms d dht_spec -> (2 <= dht_len d)%nat ->
  (dht_inplace_scratch d <= 6 * dht_len d)%nat -> dht_oop_scratch d = 0%nat ->
  deviates lib_root_half (@mixed_radix_6xn R (RNum lib_root_half) d) (/ 2 ^ 26).
Proof. exact C32_6_proof. Qed.
Print Assumptions C32_6xn_refuted.
Example C32_case : let d := @butterfly2 R (RNum lib_root_half) in
  transforms d dht_spec /\ (2 <= dht_len d)%nat /\ (dht_inplace_scratch d <= 3 * dht_len d)%nat /\ dht_oop_scratch d = 0%nat.
Proof. exact C32_case_proof. Qed.

(** what holds: for f32 the constant is within the type's unit roundoff 2^-24 *)
Theorem C32_f32_partial : Rabs (lib_root_half * sqrt 2 - 1) <= / 2 ^ 24.
Proof. exact C32_f32_proof. Qed.
Print Assumptions C32_f32_partial.
(** the f64 nearest to sqrt(1/2) would have been within 2^-53 *)
Example C32_f64_constant : Rabs (6369051672525773 * / 2 ^ 53 * sqrt 2 - 1) <= / 2 ^ 53.
Proof. exact C32_f64_proof. Qed.

(** ** C33: for every constant [c], exactly which terms of the sum are scaled ... *)
Theorem C33_mixed_radix : forall (c : R) dw dh, transforms dw dht_spec -> transforms dh dht_spec ->
  transforms (@mixed_radix R (RNum c) dw dh) (scaled_dht (dht_len dw) (dht_len dh) (c * sqrt 2)).
Proof. exact C33_mixed_proof. Qed.
Print Assumptions C33_mixed_radix.
Theorem C33_3xn : forall (c : R) d, transforms d dht_spec ->
  (dht_inplace_scratch d <= 3 * dht_len d)%nat -> dht_oop_scratch d = 0%nat ->
  transforms (@mixed_radix_3xn R (RNum c) d) (scaled_dht 3 (dht_len d) (c * sqrt 2)).
Proof. exact C33_3_proof. Qed.
Print Assumptions C33_3xn.
Theorem C33_5xn : forall (c : R) d, transforms d dht_spec ->
  (dht_inplace_scratch d <= 5 * dht_len d)%nat -> dht_oop_scratch d = 0%nat ->
  transforms (@mixed_radix_5xn R (RNum c) d) (scaled_dht 5 (dht_len d) (c * sqrt 2)).
Proof. exact C33_5_proof. Qed.
Print Assumptions C33_5xn.
Theorem C33_6xn : forall (c : R) d, transforms d dht_spec ->
  (dht_inplace_scratch d <= 6 * dht_len d)%nat -> dht_oop_scratch d = 0%nat ->
  transforms (@mixed_radix_6xn R (RNum c) d) (scaled_dht 6 (dht_len d) (c * sqrt 2)).
Proof. exact C33_6_proof. Qed.
Print Assumptions C33_6xn.
(** ... and how far that is from the DHT *)
Theorem C33_bound : forall W H rho x k, length x = (W * H)%nat -> (k < length x)%nat ->
  Rabs (nth k (scaled_dht W H rho x) 0 - nth k (dht_spec x) 0) <= Rabs (rho - 1) * sqrt 2 * norm1 x.
Proof. exact C33_bound_proof. Qed.
Print Assumptions C33_bound.
Example C33_case : let d := @butterfly2 R (RNum lib_root_half) in
  transforms d dht_spec /\ (2 <= dht_len d)%nat /\ (dht_inplace_scratch d <= 3 * dht_len d)%nat /\ dht_oop_scratch d = 0%nat.
Proof. exact C32_case_proof. Qed.
