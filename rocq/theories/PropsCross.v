(** * Property C78: what a debug build for a 32-bit target returns, every build for a 64-bit target returns

    [agree] and its variants (ProfileSpec.v): the first panics, or both do the same.  [run_tree] (Proc.v) takes the
    width of [usize] and the build profile.  [never_wrong] (WordSpec.v): what a call returns is the transform; it may
    panic.  Nothing is assumed about the lengths given to Rader's algorithm. *)
From Verif Require Import PropsCrossProof PropsExactProof PropsFloatProof IeeeSpec Ieee.
From Flocq Require Import Core IEEE754.BinarySingleNaN.
From Coq Require Import NArith ZArith Reals.

(** ** C78 *)
(** the constructors, for inner instances of the user's *)
Theorem C78_constructors : forall T (NT : Num T) size m,
  (forall n, agree_new (@naive_run W32 T NT Debug size n) (@naive_run W64 T NT m size n)) /\
  (forall dw rw dh rh : Dht T, agree_dht dw rw -> agree_dht dh rh -> agree_new (@mixed_run W32 T NT Debug size dw dh) (@mixed_run W64 T NT m size rw rh)) /\
  (forall d r : Dht T, agree_dht d r -> agree_new (@radix2_run W32 T NT Debug size d) (@radix2_run W64 T NT m size r)) /\
  (forall d r : Dht T, agree_dht d r -> agree_new (@radix3_run W32 T NT Debug size d) (@radix3_run W64 T NT m size r)) /\
  (forall d r : Dht T, agree_dht d r -> agree_new (@radix4xn_run W32 T NT Debug size d) (@radix4xn_run W64 T NT m size r)) /\
  (forall d r : Dht T, agree_dht d r -> agree_new (@radix5_run W32 T NT Debug size d) (@radix5_run W64 T NT m size r)) /\
  (forall d r : Dht T, agree_dht d r -> agree_new (@radix6_run W32 T NT Debug size d) (@radix6_run W64 T NT m size r)) /\
  (forall dq rq dh rh : Dht T, agree_dht dq rq -> agree_dht dh rh -> agree_new (@split_run W32 T NT Debug size dq dh) (@split_run W64 T NT m size rq rh)) /\
  (forall n, agree_new (@radix4_run W32 T NT Debug size n) (@radix4_run W64 T NT m size n)) /\
  (forall d r : Dht T, agree_dht d r -> agree_new (@raders_run W32 T NT Debug size d) (@raders_run W64 T NT m size r)).
Proof. exact C78_constructors_proof. Qed.
Print Assumptions C78_constructors.
(** compositions *)
Theorem C78_calls : forall T (NT : Num T) size m t (d : Dht T),
  @run_tree W32 T NT Debug size t = Ok d ->
  exists r, @run_tree W64 T NT m size t = Ok r /\ dht_len r = dht_len d /\
    dht_inplace_scratch r = dht_inplace_scratch d /\ dht_oop_scratch r = dht_oop_scratch d /\
    (forall x y, dht_process d x = Ok y -> dht_process r x = Ok y) /\
    (forall x s y, dht_process_with_scratch d x s = Ok y -> dht_process_with_scratch r x s = Ok y) /\
    (forall x o s y, dht_process_oop d x o s = Ok y -> dht_process_oop r x o s = Ok y).
Proof. exact C78_calls_proof. Qed.
Print Assumptions C78_calls.
(** so on 32 bits a debug build never returns a wrong result; release builds do (C77_silent) *)
Theorem C78_exact : forall size t (d : Dht R),
  (4 <= size)%N -> within (@isize_max W64) size t -> rad4_small t ->
  @run_tree W32 R (RNum rh) Debug size t = Ok d -> never_wrong d dht_spec.
Proof. exact C78_exact_proof. Qed.
Print Assumptions C78_exact.
Local Open Scope R_scope.
(** the same for the two floating point types *)
Theorem C78_f32 : forall L t d,
  accurate L -> rad4_small t -> within (@isize_max W64) 4 t -> representable F32 t ->
  @run_tree W32 f32 (Num_f32 L) Debug 4 t = Ok d ->
  let '(a, b, c) := roundings t in
  let s := INR a * bpow radix2 (-24) + INR b * (bpow radix2 (-24) + bpow radix2 (-45)) + INR c * bpow radix2 (-24) in
  s <= / 2 ->
  exists f, never_wrong d f /\
    forall x k, length x = dht_len d -> (k < dht_len d)%nat -> Forall (fun v => is_finite v = true) x ->
      2 * (gain t * FloatSpec.size F32 x) <= bpow radix2 127 ->
      is_finite (nth k (f x) (B754_zero false)) = true /\
      Rabs (B2R (nth k (f x) (B754_zero false)) - dht_at (map B2R x) k) <= 2 * s * (gain t * FloatSpec.size F32 x).
Proof. exact C78_f32_proof. Qed.
Print Assumptions C78_f32.
Theorem C78_f64 : forall L t d,
  accurate L -> rad4_small t -> within (@isize_max W64) 8 t -> representable F64 t ->
  @run_tree W32 f64 (Num_f64 L) Debug 8 t = Ok d ->
  let '(a, b, c) := roundings t in
  let s := INR a * bpow radix2 (-53) + INR b * bpow radix2 (-46) + INR c * bpow radix2 (-24) in
  s <= / 2 ->
  exists f, never_wrong d f /\
    forall x k, length x = dht_len d -> (k < dht_len d)%nat -> Forall (fun v => is_finite v = true) x ->
      2 * (gain t * FloatSpec.size F64 x) <= bpow radix2 1023 ->
      is_finite (nth k (f x) (B754_zero false)) = true /\
      Rabs (B2R (nth k (f x) (B754_zero false)) - dht_at (map B2R x) k) <= 2 * s * (gain t * FloatSpec.size F64 x).
Proof. exact C78_f64_proof. Qed.
Print Assumptions C78_f64.
(** a length above 2^16 that a 32-bit debug build accepts *)
Example C78_case : forall n, N.of_nat n = 66292%N -> rad4_small (Rader (Naive n)) /\ within (@isize_max W64) 4 (Rader (Naive n)) /\
  exists d, @run_tree W32 R (RNum rh) Debug 4 (Rader (Naive n)) = Ok d /\ dht_len d = (n + 1)%nat.
Proof. exact C78_case_proof. Qed.
