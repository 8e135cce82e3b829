(** * Properties C34, C39-C45: rounding errors

    [approximates F N d phi G] (FloatSpec.v): on every chunk of finite values x with phi * G * size x below the overflow
    threshold, every output of [d] is finite and within (phi - 1) * G * size x of the exact transform, where
    size x = sum_j max(|x[j]|, smallest normal number).  [rounded F N]: the operations of the type are exact operations
    followed by a rounding.  C42 shows that f32 and f64 are such types. *)
From Verif Require Import PropsFloatProof NumSpec.
From Coq Require Import Reals Lra Lia NArith.
Local Open Scope R_scope.

(** roundings: [a] of arithmetic, [b] of twiddle factors *)
Local Notation err F a b := ((1 + fu F) ^ a * (1 + ftau F) ^ b).

(** ** C34: the naive algorithm at every length *)
Theorem C34_naive : forall T (F : fmt T) (N : Num T), rounded F N -> forall n, usz n ->
  approximates F N (@dht_naive T N n) (err F (n + 2) 1) 2.
Proof. intros T. exact C34_proof. Qed.
Print Assumptions C34_naive.
Example C34_case : (exists L, rounded F32 (Num_f32 L) /\ rounded F64 (Num_f64 L)) /\ usz 1000.
Proof. split; [exact C39_case_proof|reflexivity]. Qed.

(** ** C39: the butterflies *)
Theorem C39_butterflies : forall T (F : fmt T) (N : Num T), rounded F N ->
  approximates F N (@butterfly1 T) 1 2 /\
  approximates F N (@butterfly2 T N) (err F 1 0) 2 /\
  approximates F N (@butterfly3 T N) (err F 4 1) 2 /\
  approximates F N (@butterfly4 T N) (err F 2 0) 2 /\
  approximates F N (@butterfly5 T N) (err F 5 1) 2 /\
  approximates F N (@butterfly6 T N) (err F 7 2) 4 /\
  approximates F N (@butterfly8 T N) (err F 5 1) 2 /\
  approximates F N (@butterfly9 T N) (err F 9 1) 12 /\
  approximates F N (@butterfly16 T N) (err F 6 1) 2.
Proof. intros T. exact C39_proof. Qed.
Print Assumptions C39_butterflies.
Example C39_case : exists L, rounded F32 (Num_f32 L) /\ rounded F64 (Num_f64 L).
Proof. exact C39_case_proof. Qed.

(** ** C40: the composite algorithms, over any inner instances *)
Theorem C40_mixed_radix : forall T (F : fmt T) (N : Num T), rounded F N -> forall dw dh phiw Gw phih Gh,
  usz (dht_len dw * dht_len dh * 8) -> approximates F N dw phiw Gw -> approximates F N dh phih Gh ->
  approximates F N (@mixed_radix T N dw dh) (phih * phiw * (1 + frho F) * err F 4 1) (4 * Gw * Gh).
Proof. intros T. exact C40_mixed_proof. Qed.
Print Assumptions C40_mixed_radix.
Theorem C40_2xn : forall T (F : fmt T) (N : Num T), rounded F N -> forall d phi G, approximates F N d phi G ->
  (dht_inplace_scratch d <= 2 * dht_len d)%nat -> dht_oop_scratch d = 0%nat -> usz (8 * dht_len d) ->
  approximates F N (@mixed_radix_2xn T N d) (phi * err F 3 1) (2 * G).
Proof. intros T. exact C40_2_proof. Qed.
Print Assumptions C40_2xn.
Theorem C40_3xn : forall T (F : fmt T) (N : Num T), rounded F N -> forall d phi G, approximates F N d phi G ->
  (dht_inplace_scratch d <= 3 * dht_len d)%nat -> dht_oop_scratch d = 0%nat -> usz (3 * dht_len d * 8) ->
  approximates F N (@mixed_radix_3xn T N d) (phi * err F 4 1 * (1 + frho F) * err F 4 1) (8 * G).
Proof. intros T. exact C40_3_proof. Qed.
Print Assumptions C40_3xn.
Theorem C40_4xn : forall T (F : fmt T) (N : Num T), rounded F N -> forall d phi G, approximates F N d phi G ->
  (dht_inplace_scratch d <= 4 * dht_len d)%nat -> dht_oop_scratch d = 0%nat -> usz (8 * dht_len d) ->
  approximates F N (@mixed_radix_4xn T N d) (phi * err F 4 1) (2 * G).
Proof. intros T. exact C40_4_proof. Qed.
Print Assumptions C40_4xn.
Theorem C40_5xn : forall T (F : fmt T) (N : Num T), rounded F N -> forall d phi G, approximates F N d phi G ->
  (dht_inplace_scratch d <= 5 * dht_len d)%nat -> dht_oop_scratch d = 0%nat -> usz (5 * dht_len d * 8) ->
  approximates F N (@mixed_radix_5xn T N d) (phi * err F 5 1 * (1 + frho F) * err F 4 1) (8 * G).
Proof. intros T. exact C40_5_proof. Qed.
Print Assumptions C40_5xn.
Theorem C40_6xn : forall T (F : fmt T) (N : Num T), rounded F N -> forall d phi G, approximates F N d phi G ->
  (dht_inplace_scratch d <= 6 * dht_len d)%nat -> dht_oop_scratch d = 0%nat -> usz (6 * dht_len d * 8) ->
  approximates F N (@mixed_radix_6xn T N d) (phi * err F 7 2 * (1 + frho F) * err F 4 1) (16 * G).
Proof. intros T. exact C40_6_proof. Qed.
Print Assumptions C40_6xn.
Theorem C40_split_radix : forall T (F : fmt T) (N : Num T), rounded F N -> forall dq dh phiq Gq phih Gh,
  approximates F N dq phiq Gq -> approximates F N dh phih Gh ->
  dht_len dh = (dht_len dq * 2)%nat -> usz (dht_len dq * 4) ->
  (dht_inplace_scratch dh <= dht_len dh)%nat -> (dht_inplace_scratch dq <= dht_len dq * 4)%nat -> dht_oop_scratch dq = 0%nat ->
  exists d, @split_radix T N dq dh = Ok d /\
    approximates F N d (Rmax (phih * err F 1 0) (phiq * err F 4 1)) (Rmax Gh (2 * Gq)).
Proof. intros T. exact C40_split_proof. Qed.
Print Assumptions C40_split_radix.
Theorem C40_raders : forall T (F : fmt T) (N : Num T), rounded F N -> forall m d phi G, approximates F N d phi G ->
  nprime (N.of_nat (dht_len d + 1)) -> (2 <= dht_len d)%nat -> (N.of_nat (dht_len d + 1) <= 2 ^ 32)%N ->
  err F 4 2 * phi * (4 * G) <= fhi F ->
  exists D, @raders T N m d = Ok D /\
    approximates F N D (phi * phi * phi * err F 6 2) (4 * INR (dht_len d) * (G * G * G)).
Proof. intros T. exact C40_rader_proof. Qed.
Print Assumptions C40_raders.
Theorem C40_radix4 : forall T (F : fmt T) (N : Num T), rounded F N -> forall k, (k <= 6)%nat ->
  exists D, @radix4 T N (2 ^ k) = Ok D /\ approximates F N D (err F 10 2) 4.
Proof. intros T. exact C40_radix4_proof. Qed.
Print Assumptions C40_radix4.
Example C40_case : forall T (F : fmt T) (N : Num T), rounded F N -> fu F <= 1 -> ftau F <= 1 -> 16777216 <= fhi F ->
  in_range case_tree /\ representable F case_tree /\ exists d, @build T N Debug case_tree = Ok d.
Proof. intros T F N. exact (case_build F N Debug). Qed.

(** ** C41: every tree the user composes from the public constructors; [case_tree] is
    Mixed (Split Fly4 Fly8) (Rader (Two (Naive 6))) *)
Theorem C41_trees : forall T (F : fmt T) (N : Num T), rounded F N -> forall m t d,
  in_range t -> representable F t -> @build T N m t = Ok d ->
  approximates F N d (tree_phi (fu F) (ftau F) (frho F) t) (gain t).
Proof. intros T. exact C41_proof. Qed.
Print Assumptions C41_trees.
(** the syntax of trees misses nothing ... *)
Theorem C41_covers : forall T (NT : Num T) m (d : Dht T),
  assembled m ranged d <-> exists t, in_range t /\ build m t = Ok d.
Proof. exact C41_covers_proof. Qed.
Print Assumptions C41_covers.
Theorem C41_length : forall T (NT : Num T) m t (d : Dht T), build m t = Ok d -> dht_len d = tree_len t.
Proof. exact C41_length_proof. Qed.
Print Assumptions C41_length.
(** ... and the bound is linear in the number of roundings *)
Theorem C41_linear : forall u tau rho t, 0 <= u -> 0 <= tau -> 0 <= rho ->
  let '(a, b, c) := roundings t in
  let s := INR a * u + INR b * tau + INR c * rho in
  s <= / 2 -> tree_phi u tau rho t - 1 <= 2 * s.
Proof. exact C41_linear_proof. Qed.
Print Assumptions C41_linear.
Example C41_case : forall L m, accurate L ->
  in_range case_tree /\ representable F32 case_tree /\ (exists d, @build f32 (Num_f32 L) m case_tree = Ok d) /\
  let '(a, b, c) := roundings case_tree in
  INR a * bpow radix2 (-24) + INR b * (bpow radix2 (-24) + bpow radix2 (-45)) + INR c * bpow radix2 (-24) <= / 2.
Proof. exact C42_case_proof. Qed.

(** ** C42: f32 and f64, IEEE 754 binary32 and binary64 with any cos and sin accurate to 2^-52 *)
Theorem C42_f32_rounded : forall L, accurate L -> rounded F32 (Num_f32 L).
Proof. exact ok32. Qed.
Print Assumptions C42_f32_rounded.
Theorem C42_f64_rounded : forall L, accurate L -> rounded F64 (Num_f64 L).
Proof. exact ok64. Qed.
Print Assumptions C42_f64_rounded.
Theorem C42_f32 : forall L m t d, accurate L -> in_range t -> representable F32 t -> @build f32 (Num_f32 L) m t = Ok d ->
  let '(a, b, c) := roundings t in
  let s := INR a * bpow radix2 (-24) + INR b * (bpow radix2 (-24) + bpow radix2 (-45)) + INR c * bpow radix2 (-24) in
  s <= / 2 ->
  exists f, transforms d f /\
    forall x k, length x = dht_len d -> (k < dht_len d)%nat -> Forall (fun v => is_finite v = true) x ->
      2 * (gain t * size F32 x) <= bpow radix2 127 ->
      is_finite (nth k (f x) (B754_zero false)) = true /\
      Rabs (B2R (nth k (f x) (B754_zero false)) - dht_at (map B2R x) k) <= 2 * s * (gain t * size F32 x).
Proof. exact C42_f32_proof. Qed.
Print Assumptions C42_f32.
Theorem C42_f64 : forall L m t d, accurate L -> in_range t -> representable F64 t -> @build f64 (Num_f64 L) m t = Ok d ->
  let '(a, b, c) := roundings t in
  let s := INR a * bpow radix2 (-53) + INR b * bpow radix2 (-46) + INR c * bpow radix2 (-24) in
  s <= / 2 ->
  exists f, transforms d f /\
    forall x k, length x = dht_len d -> (k < dht_len d)%nat -> Forall (fun v => is_finite v = true) x ->
      2 * (gain t * size F64 x) <= bpow radix2 1023 ->
      is_finite (nth k (f x) (B754_zero false)) = true /\
      Rabs (B2R (nth k (f x) (B754_zero false)) - dht_at (map B2R x) k) <= 2 * s * (gain t * size F64 x).
Proof. exact C42_f64_proof. Qed.
Print Assumptions C42_f64.
Example C42_library : accurate (Libm (ideal cos) (ideal sin)).
Proof. exact accurate_exists. Qed.
Example C42_case : forall L m, accurate L ->
  in_range case_tree /\ representable F64 case_tree /\ (exists d, @build f64 (Num_f64 L) m case_tree = Ok d) /\
  let '(a, b, c) := roundings case_tree in
  INR a * bpow radix2 (-53) + INR b * bpow radix2 (-46) + INR c * bpow radix2 (-24) <= / 2.
Proof. exact C42_case64_proof. Qed.
Example C42_butterfly16 : forall L, accurate L -> exists f, transforms (@butterfly16 f32 (Num_f32 L)) f /\
  forall x k, length x = 16%nat -> (k < 16)%nat -> Forall (fun v => is_finite v = true) x -> size F32 x <= bpow radix2 125 ->
    is_finite (nth k (f x) (B754_zero false)) = true /\
    Rabs (B2R (nth k (f x) (B754_zero false)) - dht_at (map B2R x) k) <= bpow radix2 (-19) * size F32 x.
Proof. exact C42_fly16_proof. Qed.

(** ** C43: transforming twice *)
Theorem C43_round_trip : forall T (F : fmt T) (N : Num T), rounded F N -> forall d phi G,
  approximates F N d phi G -> round_trip F N d phi G.
Proof. intros T. exact C43_proof. Qed.
Print Assumptions C43_round_trip.
Example C43_case : exists L, approximates F64 (Num_f64 L) (@dht_naive f64 (Num_f64 L) 1000) (err F64 (1000 + 2) 1) 2.
Proof. destruct C39_case_proof as (L & _ & H). exists L. apply C34_proof; [exact H|reflexivity]. Qed.

(** ** C44: butterflies 1, 2 and 4 are exact on integers *)
Theorem C44_f32 : forall L, let N := Num_f32 L in
  exact_on_integers F32 (bpow radix2 24) (@butterfly1 f32) /\ exact_on_integers F32 (bpow radix2 24) (@butterfly2 f32 N) /\
  exact_on_integers F32 (bpow radix2 24) (@butterfly4 f32 N).
Proof. exact C44_f32_proof. Qed.
Print Assumptions C44_f32.
Theorem C44_f64 : forall L, let N := Num_f64 L in
  exact_on_integers F64 (bpow radix2 53) (@butterfly1 f64) /\ exact_on_integers F64 (bpow radix2 53) (@butterfly2 f64 N) /\
  exact_on_integers F64 (bpow radix2 53) (@butterfly4 f64 N).
Proof. exact C44_f64_proof. Qed.
Print Assumptions C44_f64.
Example C44_case : integral F64 (bpow radix2 53) [f64_two; f64_one; Bopp f64_two; f64_of_usize 1000].
Proof. exact C44_case_proof. Qed.

(** ** C45: false.  In f64, MixedRadix over two Butterfly2 has an error above 2^-26 on some input, whatever accurate cos and
    sin the platform has; butterfly4, of the same length, stays within 2^-51 (C39) *)
Theorem C45_f64_mixed_radix_refuted : forall L, accurate L ->
  let d := @mixed_radix f64 (Num_f64 L) (@butterfly2 f64 (Num_f64 L)) (@butterfly2 f64 (Num_f64 L)) in
  exists x y, length x = dht_len d /\ Forall (fun v => is_finite v = true) x /\ @dht_process f64 (Num_f64 L) d x = Ok y /\
    bpow radix2 (-26) * size F64 x < Rabs (B2R (nth 1 y (B754_zero false)) - dht_at (map B2R x) 1).
Proof. exact C45_proof. Qed.
Print Assumptions C45_f64_mixed_radix_refuted.
