(** * Property C69: debug builds and release builds agree

    [agree a b] (ProfileSpec.v): the debug build panics, or both do the same.  [run_tree] (Proc.v) runs the
    constructors of a composition, and the instance it returns processes data, with every integer operation
    checked (Debug) or wrapping (Release).  Nothing is assumed about lengths, ranges or the number type. *)
From Verif Require Import PropsProfileProof PropsExactProof PropsFloatProof IeeeSpec Ieee.
From Flocq Require Import Core IEEE754.BinarySingleNaN.
From Coq Require Import NArith ZArith Reals.

(** ** C69 *)
(** the integer functions *)
Theorem C69_math : (forall b e n, agree (modular_exponent Debug b e n) (modular_exponent Release b e n)) /\
  (forall n, agree (distinct_prime_factors Debug n) (distinct_prime_factors Release n)) /\
  (forall p, agree (primitive_root Debug p) (primitive_root Release p)) /\
  (forall a b, agree (extended_gcd_run Debug a b) (extended_gcd_run Release a b)).
Proof. exact C69_math_proof. Qed.
Print Assumptions C69_math.
(** agreement is only one way: here the release build is wrong (the power is 289) and the debug build panics *)
Example C69_math_case : modular_exponent Debug 8589934592 2 8589934609 = Panic /\
  modular_exponent Release 8589934592 2 8589934609 = Ok 0%N /\ (8589934592 ^ 2 mod 8589934609 = 289)%N /\
  modular_exponent Debug 3 100 65537 = Ok 33330%N.
Proof. repeat split; vm_compute; reflexivity. Qed.
(** the constructors, for inner instances of the user's *)
Theorem C69_constructors : forall (W : width) T (NT : Num T) size,
  (forall n, agree_new (@naive_run W T NT Debug size n) (naive_run Release size n)) /\
  (forall dw rw dh rh : Dht T, agree_dht dw rw -> agree_dht dh rh -> agree_new (mixed_run Debug size dw dh) (mixed_run Release size rw rh)) /\
  (forall d r : Dht T, agree_dht d r -> agree_new (radix2_run Debug size d) (radix2_run Release size r)) /\
  (forall d r : Dht T, agree_dht d r -> agree_new (radix3_run Debug size d) (radix3_run Release size r)) /\
  (forall d r : Dht T, agree_dht d r -> agree_new (radix4xn_run Debug size d) (radix4xn_run Release size r)) /\
  (forall d r : Dht T, agree_dht d r -> agree_new (radix5_run Debug size d) (radix5_run Release size r)) /\
  (forall d r : Dht T, agree_dht d r -> agree_new (radix6_run Debug size d) (radix6_run Release size r)) /\
  (forall dq rq dh rh : Dht T, agree_dht dq rq -> agree_dht dh rh -> agree_new (split_run Debug size dq dh) (split_run Release size rq rh)) /\
  (forall n, agree_new (@radix4_run W T NT Debug size n) (radix4_run Release size n)) /\
  (forall d r : Dht T, agree_dht d r -> agree_new (raders_run Debug size d) (raders_run Release size r)).
Proof. exact C69_constructors_proof. Qed.
Print Assumptions C69_constructors.
(** compositions: what a debug build returns, the release build returns *)
Theorem C69_calls : forall (W : width) T (NT : Num T) size t (d : Dht T), run_tree Debug size t = Ok d ->
  exists r, run_tree Release size t = Ok r /\ dht_len r = dht_len d /\
    dht_inplace_scratch r = dht_inplace_scratch d /\ dht_oop_scratch r = dht_oop_scratch d /\
    (forall x y, dht_process d x = Ok y -> dht_process r x = Ok y) /\
    (forall x s y, dht_process_with_scratch d x s = Ok y -> dht_process_with_scratch r x s = Ok y) /\
    (forall x o s y, dht_process_oop d x o s = Ok y -> dht_process_oop r x o s = Ok y).
Proof. exact C69_calls_proof. Qed.
Print Assumptions C69_calls.
(** so a composition that a debug build constructs is right in a release build, without a bound on the Rader lengths *)
Theorem C69_exact : forall (W : width) size t (d : Dht R), (4 <= size)%N -> within isize_max size t -> raders_fit t -> rad4_small t ->
  @run_tree W R (RNum rh) Debug size t = Ok d ->
  exists r, @run_tree W R (RNum rh) Release size t = Ok r /\ dht_len r = dht_len d /\ transforms r dht_spec.
Proof. exact C69_exact_proof. Qed.
Print Assumptions C69_exact.
Local Open Scope R_scope.
Theorem C69_f32 : forall (W : width) L t d, accurate L -> rad4_small t -> within isize_max 4 t -> raders_fit t -> representable F32 t ->
  @run_tree W f32 (Num_f32 L) Debug 4 t = Ok d ->
  let '(a, b, c) := roundings t in
  let s := INR a * bpow radix2 (-24) + INR b * (bpow radix2 (-24) + bpow radix2 (-45)) + INR c * bpow radix2 (-24) in
  s <= / 2 ->
  exists r f, @run_tree W f32 (Num_f32 L) Release 4 t = Ok r /\ dht_len r = dht_len d /\ transforms r f /\
    forall x k, length x = dht_len r -> (k < dht_len r)%nat -> Forall (fun v => is_finite v = true) x ->
      2 * (gain t * FloatSpec.size F32 x) <= bpow radix2 127 ->
      is_finite (nth k (f x) (B754_zero false)) = true /\
      Rabs (B2R (nth k (f x) (B754_zero false)) - dht_at (map B2R x) k) <= 2 * s * (gain t * FloatSpec.size F32 x).
Proof. exact C69_f32_proof. Qed.
Print Assumptions C69_f32.
Theorem C69_f64 : forall (W : width) L t d, accurate L -> rad4_small t -> within isize_max 8 t -> raders_fit t -> representable F64 t ->
  @run_tree W f64 (Num_f64 L) Debug 8 t = Ok d ->
  let '(a, b, c) := roundings t in
  let s := INR a * bpow radix2 (-53) + INR b * bpow radix2 (-46) + INR c * bpow radix2 (-24) in
  s <= / 2 ->
  exists r f, @run_tree W f64 (Num_f64 L) Release 8 t = Ok r /\ dht_len r = dht_len d /\ transforms r f /\
    forall x k, length x = dht_len r -> (k < dht_len r)%nat -> Forall (fun v => is_finite v = true) x ->
      2 * (gain t * FloatSpec.size F64 x) <= bpow radix2 1023 ->
      is_finite (nth k (f x) (B754_zero false)) = true /\
      Rabs (B2R (nth k (f x) (B754_zero false)) - dht_at (map B2R x) k) <= 2 * s * (gain t * FloatSpec.size F64 x).
Proof. exact C69_f64_proof. Qed.
Print Assumptions C69_f64.
Example C69_case : forall (W : width) L, accurate L -> rad4_small case_tree /\ within isize_max 8 case_tree /\ raders_fit case_tree /\ representable F64 case_tree /\
  exists d, @run_tree W f64 (Num_f64 L) Debug 8 case_tree = Ok d.
Proof. exact C69_case_proof. Qed.
