(** * Properties C53 and C54: debug builds

    With overflow checks on, RadersAlgorithm::new cannot return an instance of a length where its root search is wrong
    (C31): it panics at every prime above 2^32.  So in debug builds the theorems about compositions need no bound
    on Rader lengths. *)
From Verif Require Import PropsDebugProof PropsMathProof PropsExactProof PropsFloatProof.
From Flocq Require Import Core IEEE754.BinarySingleNaN.
From Coq Require Import NArith Reals Lra.

(** ** C53 *)
Theorem C53_root : forall p, nprime p -> (2 ^ 32 < p < 2 ^ 64)%N -> primitive_root Debug p = Panic.
Proof. exact C53_root_proof. Qed.
Print Assumptions C53_root.
Example C53_root_case : nprime 4294967311 /\ (2 ^ 32 < 4294967311 < 2 ^ 64)%N.
Proof. split; [apply quick_prime; vm_compute; reflexivity|split; reflexivity]. Qed.
Theorem C53_rader : forall T (NT : Num T) (d D : Dht T), (N.of_nat (dht_len d) + 1 < 2 ^ 64)%N -> raders Debug d = Ok D ->
  nprime (N.of_nat (dht_len D)) /\ (3 <= N.of_nat (dht_len D) <= 2 ^ 32)%N.
Proof. exact C53_rader_proof. Qed.
Print Assumptions C53_rader.
(** C12 with every Rader length a 64-bit machine can name *)
Theorem C53_nesting : forall (A : allowed R),
  (forall d, al_user A d -> transforms d dht_spec /\ modest d) -> (forall n, al_radix4 A n -> (n <= 64)%nat) ->
  (forall p, al_rader A p -> (N.of_nat p < 2 ^ 64)%N) ->
  forall d, @assembled R (RNum rh) Debug A d -> transforms d dht_spec.
Proof. exact C53_nesting_proof. Qed.
Print Assumptions C53_nesting.
Example C53_case : (exists d, @assembled R (RNum rh) Debug case_allowed d /\ dht_len d = (104 * 120)%nat) /\
  exists d D, @raders R (RNum rh) Debug d = Ok D.
Proof.
  split; [exact C12_case_proof|]. destruct C11_case_proof as (H1 & H2 & H3 & H4 & H5).
  destruct (C11_proof rh Debug _ H1 H2 H3 H4 H5) as (D & E & _). eexists. exists D. exact E.
Qed.

(** ** C54: from the constructors of a debug build to the error of the result (joins C42, C52, C53) *)
Local Open Scope R_scope.
Theorem C54_f32 : forall (W : width) L t d, accurate L -> rad4_small t -> within isize_max 4 t -> raders_fit t -> representable F32 t ->
  @construct W f32 (Num_f32 L) Debug 4 t = Ok d ->
  let '(a, b, c) := roundings t in
  let s := INR a * bpow radix2 (-24) + INR b * (bpow radix2 (-24) + bpow radix2 (-45)) + INR c * bpow radix2 (-24) in
  s <= / 2 ->
  exists f, transforms d f /\
    forall x k, length x = dht_len d -> (k < dht_len d)%nat -> Forall (fun v => is_finite v = true) x ->
      2 * (gain t * FloatSpec.size F32 x) <= bpow radix2 127 ->
      is_finite (nth k (f x) (B754_zero false)) = true /\
      Rabs (B2R (nth k (f x) (B754_zero false)) - dht_at (map B2R x) k) <= 2 * s * (gain t * FloatSpec.size F32 x).
Proof. exact C54_f32_proof. Qed.
Print Assumptions C54_f32.
Theorem C54_f64 : forall (W : width) L t d, accurate L -> rad4_small t -> within isize_max 8 t -> raders_fit t -> representable F64 t ->
  @construct W f64 (Num_f64 L) Debug 8 t = Ok d ->
  let '(a, b, c) := roundings t in
  let s := INR a * bpow radix2 (-53) + INR b * bpow radix2 (-46) + INR c * bpow radix2 (-24) in
  s <= / 2 ->
  exists f, transforms d f /\
    forall x k, length x = dht_len d -> (k < dht_len d)%nat -> Forall (fun v => is_finite v = true) x ->
      2 * (gain t * FloatSpec.size F64 x) <= bpow radix2 1023 ->
      is_finite (nth k (f x) (B754_zero false)) = true /\
      Rabs (B2R (nth k (f x) (B754_zero false)) - dht_at (map B2R x) k) <= 2 * s * (gain t * FloatSpec.size F64 x).
Proof. exact C54_f64_proof. Qed.
Print Assumptions C54_f64.
(** a SplitRadix of 16 and a Rader of 13 under a MixedRadix *)
Example C54_case : forall (W : width) L, accurate L -> rad4_small case_tree /\ within isize_max 8 case_tree /\ raders_fit case_tree /\ representable F64 case_tree /\
  exists d, @construct W f64 (Num_f64 L) Debug 8 case_tree = Ok d.
Proof. exact C54_case_proof. Qed.
