(** * Properties C55 to C57: processing on machine arithmetic

    [run_tree m size t] (Proc.v) runs the constructors of a composition, and the instance it returns processes data, with
    every [usize] and [i64] operation checked (Debug) or wrapping (Release).  [construct] (New.v) checks the constructors
    only; [build] (FloatSpec.v) uses unbounded numbers throughout. *)
From Verif Require Import PropsProcProof PropsExactProof PropsFloatProof.
From Flocq Require Import Core IEEE754.BinarySingleNaN.
From Coq Require Import NArith ZArith Reals.

(** ** C55: index arithmetic never overflows *)
(** each constructor, for inner instances of the user's *)
Theorem C55_constructors : forall (W : width) T (NT : Num T) m size, (4 <= size)%N ->
  (forall n, @naive_run W T NT m size n = naive_new size n) /\
  (forall dw dh : Dht T, (N.of_nat (dht_len dw) < span)%N -> (N.of_nat (dht_len dh) < span)%N ->
     mixed_run m size dw dh = mixed_new m size dw dh) /\
  (forall d : Dht T, radix2_run m size d = radix2_new m size d) /\
  (forall d : Dht T, radix3_run m size d = radix3_new m size d) /\
  (forall d : Dht T, radix4xn_run m size d = radix4xn_new m size d) /\
  (forall d : Dht T, radix5_run m size d = radix5_new m size d) /\
  (forall d : Dht T, radix6_run m size d = radix6_new m size d) /\
  (forall dq dh : Dht T, safe_rust dq -> safe_rust dh -> split_run m size dq dh = split_new m size dq dh) /\
  (forall len, @radix4_run W T NT m size len = radix4_new m size len) /\
  (forall d : Dht T, (N.of_nat (dht_len d) + 1 < span / 2)%N -> rader_fits (N.of_nat (dht_len d + 1)) -> safe_rust d -> raders_run m size d = raders_new m size d).
Proof. exact C55_constructors_proof. Qed.
Print Assumptions C55_constructors.
(** whole compositions: what unbounded arithmetic gives, or a refused allocation *)
Theorem C55_trees : forall (W : width) T (NT : Num T) m size t, (4 <= size)%N -> within isize_max size t -> raders_fit t ->
  @run_tree W T NT m size t = build m t \/ @run_tree W T NT m size t = Panic.
Proof. exact C55_trees_proof. Qed.
Print Assumptions C55_trees.
Theorem C55_complete : forall (W : width) T (NT : Num T) m size t, (4 <= size)%N -> (size <= ample)%N -> within ample size t -> raders_fit t ->
  @run_tree W T NT m size t = build m t.
Proof. exact C55_complete_proof. Qed.
Print Assumptions C55_complete.
Example C55_case : forall (W : width) T (NT : Num T) m, 
  within ample 8 (Mixed (Rader (Split Fly1 Fly2)) (Six (Five (Rad4 16)))) /\ raders_fit (Mixed (Rader (Split Fly1 Fly2)) (Six (Five (Rad4 16)))) /\
  exists d, @run_tree W T NT m 8 (Mixed (Naive 5) (Split (Three Fly1) (Six Fly1))) = Ok d /\ dht_len d = 60%nat.
Proof. exact C55_case_proof. Qed.

(** ** C56: the extended Euclid of Rader's algorithm on i64 *)
Theorem C56_euclid : forall m a b, (0 < a < b)%Z -> (b < 2 ^ 63)%Z ->
  exists x y, extended_gcd_run m a b = Ok (Z.gcd a b, x, y) /\ (x * a + y * b = Z.gcd a b)%Z.
Proof. exact C56_proof. Qed.
Print Assumptions C56_euclid.
Example C56_case : extended_gcd_run Debug 3 9223372036854775807 = Ok (1, -3074457345618258602, 1)%Z /\
  extended_gcd_run Debug 5 13 = Ok (1, -5, 2)%Z.
Proof. split; vm_compute; reflexivity. Qed.
(** the casts between usize and i64 included *)
Theorem C56_roots : forall (W : width) m p, (N.of_nat p < span / 2)%N -> raders_roots_run m p = raders_roots m p.
Proof. exact C56_roots_proof. Qed.
Print Assumptions C56_roots.
Example C56_roots_case : forall W : width, raders_roots_run Debug 13 = Ok (2, 7)%nat.
Proof. intros []; vm_compute; reflexivity. Qed.

(** ** C57: safety, exactness and error of the whole run *)
Theorem C57_safe : forall (W : width) T (NT : Num T) m size t (d : Dht T), (4 <= size)%N -> within isize_max size t -> raders_fit t ->
  run_tree m size t = Ok d -> safe_rust d /\ dht_len d = tree_len t.
Proof. exact C57_safe_proof. Qed.
Print Assumptions C57_safe.
Theorem C57_exact : forall (W : width) m size t (d : Dht R), (4 <= size)%N -> within isize_max size t -> raders_fit t ->
  in_range t \/ m = Debug /\ rad4_small t -> @run_tree W R (RNum rh) m size t = Ok d -> transforms d dht_spec.
Proof. exact C57_exact_proof. Qed.
Print Assumptions C57_exact.
Local Open Scope R_scope.
Theorem C57_f32 : forall (W : width) L m t d, accurate L -> in_range t \/ m = Debug /\ rad4_small t -> within isize_max 4 t -> raders_fit t -> representable F32 t ->
  @run_tree W f32 (Num_f32 L) m 4 t = Ok d ->
  let '(a, b, c) := roundings t in
  let s := INR a * bpow radix2 (-24) + INR b * (bpow radix2 (-24) + bpow radix2 (-45)) + INR c * bpow radix2 (-24) in
  s <= / 2 ->
  exists f, transforms d f /\
    forall x k, length x = dht_len d -> (k < dht_len d)%nat -> Forall (fun v => is_finite v = true) x ->
      2 * (gain t * FloatSpec.size F32 x) <= bpow radix2 127 ->
      is_finite (nth k (f x) (B754_zero false)) = true /\
      Rabs (B2R (nth k (f x) (B754_zero false)) - dht_at (map B2R x) k) <= 2 * s * (gain t * FloatSpec.size F32 x).
Proof. exact C57_f32_proof. Qed.
Print Assumptions C57_f32.
Theorem C57_f64 : forall (W : width) L m t d, accurate L -> in_range t \/ m = Debug /\ rad4_small t -> within isize_max 8 t -> raders_fit t -> representable F64 t ->
  @run_tree W f64 (Num_f64 L) m 8 t = Ok d ->
  let '(a, b, c) := roundings t in
  let s := INR a * bpow radix2 (-53) + INR b * bpow radix2 (-46) + INR c * bpow radix2 (-24) in
  s <= / 2 ->
  exists f, transforms d f /\
    forall x k, length x = dht_len d -> (k < dht_len d)%nat -> Forall (fun v => is_finite v = true) x ->
      2 * (gain t * FloatSpec.size F64 x) <= bpow radix2 1023 ->
      is_finite (nth k (f x) (B754_zero false)) = true /\
      Rabs (B2R (nth k (f x) (B754_zero false)) - dht_at (map B2R x) k) <= 2 * s * (gain t * FloatSpec.size F64 x).
Proof. exact C57_f64_proof. Qed.
Print Assumptions C57_f64.
Example C57_case : forall (W : width) L m, accurate L -> in_range case_tree /\ within isize_max 8 case_tree /\ raders_fit case_tree /\ representable F64 case_tree /\
  exists d, @run_tree W f64 (Num_f64 L) m 8 case_tree = Ok d.
Proof. exact C57_case_proof. Qed.
