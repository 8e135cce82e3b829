(** * Proofs of the properties in PropsProfile.v *)
From Verif Require Export ProfileTree NewSpec Api.
From Verif Require Import PropsProcProof PropsExactProof Lemmas Spec.
From Coq Require Import NArith ZArith Reals Lia.

Lemma agree_ok {A} (a b : res A) v : agree a b -> a = Ok v -> b = Ok v.
Proof. intros [-> | ->] E; [discriminate|exact E]. Qed.
Lemma new_ok {T} (a b : res (Dht T)) d : agree_new a b -> a = Ok d -> exists r, b = Ok r /\ agree_dht d r.
Proof. intros H ->. destruct b; try contradiction. exists a. split; [reflexivity|exact H]. Qed.

Lemma transforms_agree {T} (d r : Dht T) f : agree_dht d r -> transforms d f -> transforms r f.
Proof.
  intros A [L I O Z]. split; try (rewrite <- (ag_len _ _ A)).
  - exact L.
  - intros xs scratch. rewrite <- (ag_inplace_scratch _ _ A). intros P C S. destruct (I xs scratch P C S) as (s & E & K).
    exists s. split; [|exact K]. exact (agree_ok _ _ _ (ag_inplace _ _ A _ _) E).
  - intros xs output scratch. rewrite <- (ag_oop_scratch _ _ A). intros P C S S'. destruct (O xs output scratch P C S S') as (i & s & E & K).
    exists i, s. split; [|exact K]. exact (agree_ok _ _ _ (ag_oop _ _ A _ _ _) E).
  - intros E0. destruct (Z E0) as [Z1 Z2]. split; intros.
    + exact (agree_ok _ _ _ (ag_inplace _ _ A _ _) (Z1 _ _)).
    + exact (agree_ok _ _ _ (ag_oop _ _ A _ _ _) (Z2 _ _ _)).
Qed.

Lemma C69_math_proof : (forall b e n, agree (modular_exponent Debug b e n) (modular_exponent Release b e n)) /\
  (forall n, agree (distinct_prime_factors Debug n) (distinct_prime_factors Release n)) /\
  (forall p, agree (primitive_root Debug p) (primitive_root Release p)) /\
  (forall a b, agree (extended_gcd_run Debug a b) (extended_gcd_run Release a b)).
Proof. exact (conj (agree_modexp _) (conj (agree_factors _) (conj (agree_root _) (agree_gcd _)))). Qed.
Lemma C69_constructors_proof (W : width) T (NT : Num T) size :
  (forall n, agree_new (@naive_run W T NT Debug size n) (naive_run Release size n)) /\
  (forall dw rw dh rh : Dht T, agree_dht dw rw -> agree_dht dh rh -> agree_new (mixed_run Debug size dw dh) (mixed_run Release size rw rh)) /\
  (forall d r : Dht T, agree_dht d r -> agree_new (radix2_run Debug size d) (radix2_run Release size r)) /\
  (forall d r : Dht T, agree_dht d r -> agree_new (radix3_run Debug size d) (radix3_run Release size r)) /\
  (forall d r : Dht T, agree_dht d r -> agree_new (radix4xn_run Debug size d) (radix4xn_run Release size r)) /\
  (forall d r : Dht T, agree_dht d r -> agree_new (radix5_run Debug size d) (radix5_run Release size r)) /\
  (forall d r : Dht T, agree_dht d r -> agree_new (radix6_run Debug size d) (radix6_run Release size r)) /\
  (forall dq rq dh rh : Dht T, agree_dht dq rq -> agree_dht dh rh -> agree_new (split_run Debug size dq dh) (split_run Release size rq rh)) /\
  (forall n, agree_new (@radix4_run W T NT Debug size n) (radix4_run Release size n)) /\
  (forall d r : Dht T, agree_dht d r -> agree_new (raders_run Debug size d) (raders_run Release size r)).
Proof.
  pose proof (N.le_refl (@span W) : narrow W W) as HW.
  split; [apply (agree_naive HW)|]. split; [apply (agree_mixed HW)|]. split; [apply (agree_radix2 HW)|]. split; [apply (agree_radix3 HW)|].
  split; [apply (agree_radix4xn HW)|]. split; [apply (agree_radix5 HW)|]. split; [apply (agree_radix6 HW)|]. split; [apply (agree_split HW)|].
  split; [apply (agree_radix4 HW)|apply (agree_raders HW)].
Qed.
Lemma C69_calls_proof (W : width) T (NT : Num T) size t (d : Dht T) : run_tree Debug size t = Ok d ->
  exists r, run_tree Release size t = Ok r /\ dht_len r = dht_len d /\
    dht_inplace_scratch r = dht_inplace_scratch d /\ dht_oop_scratch r = dht_oop_scratch d /\
    (forall x y, dht_process d x = Ok y -> dht_process r x = Ok y) /\
    (forall x s y, dht_process_with_scratch d x s = Ok y -> dht_process_with_scratch r x s = Ok y) /\
    (forall x o s y, dht_process_oop d x o s = Ok y -> dht_process_oop r x o s = Ok y).
Proof.
  intros E. destruct (new_ok _ _ _ (agree_tree (N.le_refl _ : narrow W W) Release size t) E) as (r & E' & A). exists r. split; [exact E'|].
  pose proof A as [L S O I J]. repeat split; try congruence; intros *.
  - apply agree_ok. now apply agree_process.
  - apply agree_ok. apply I.
  - apply agree_ok. apply J.
Qed.
Lemma C69_exact_proof (W : width) size t (d : Dht R) : (4 <= size)%N -> within isize_max size t -> raders_fit t -> rad4_small t ->
  @run_tree W R (RNum rh) Debug size t = Ok d ->
  exists r, @run_tree W R (RNum rh) Release size t = Ok r /\ dht_len r = dht_len d /\ transforms r dht_spec.
Proof.
  intros S Hw Hf B E. destruct (new_ok _ _ _ (agree_tree (N.le_refl _ : narrow W W) Release size t) E) as (r & E' & A). exists r. split; [exact E'|].
  split; [symmetry; apply (ag_len _ _ A)|]. apply (transforms_agree d r _ A).
  eapply C57_exact_proof; eauto.
Qed.
(** ** rounding *)
From Verif Require Import PropsFloatProof PropsDebugProof IeeeSpec Ieee.
From Flocq Require Import Core IEEE754.BinarySingleNaN.
Local Open Scope R_scope.
Lemma C69_f32_proof (W : width) L t d : accurate L -> rad4_small t -> within isize_max 4 t -> raders_fit t -> representable F32 t ->
  @run_tree W f32 (Num_f32 L) Debug 4 t = Ok d ->
  let '(a, b, c) := roundings t in
  let s := INR a * bpow radix2 (-24) + INR b * (bpow radix2 (-24) + bpow radix2 (-45)) + INR c * bpow radix2 (-24) in
  s <= / 2 ->
  exists r f, @run_tree W f32 (Num_f32 L) Release 4 t = Ok r /\ dht_len r = dht_len d /\ transforms r f /\
    forall x k, length x = dht_len r -> (k < dht_len r)%nat -> Forall (fun v => is_finite v = true) x ->
      2 * (gain t * FloatSpec.size F32 x) <= bpow radix2 127 ->
      is_finite (nth k (f x) (B754_zero false)) = true /\
      Rabs (B2R (nth k (f x) (B754_zero false)) - dht_at (map B2R x) k) <= 2 * s * (gain t * FloatSpec.size F32 x).
Proof.
  intros A B Hw Hf P E. pose proof (C57_f32_proof W L Debug t d A (or_intror (conj eq_refl B)) Hw Hf P E) as H.
  destruct (roundings t) as [[a b] c]. intros s Hs. destruct (H Hs) as (f & F & K).
  destruct (new_ok _ _ _ (agree_tree (N.le_refl _ : narrow W W) Release 4 t) E) as (r & E' & G). exists r, f. split; [exact E'|]. rewrite <- (ag_len _ _ G).
  split; [reflexivity|]. split; [exact (transforms_agree d r f G F)|]. exact K.
Qed.
Lemma C69_f64_proof (W : width) L t d : accurate L -> rad4_small t -> within isize_max 8 t -> raders_fit t -> representable F64 t ->
  @run_tree W f64 (Num_f64 L) Debug 8 t = Ok d ->
  let '(a, b, c) := roundings t in
  let s := INR a * bpow radix2 (-53) + INR b * bpow radix2 (-46) + INR c * bpow radix2 (-24) in
  s <= / 2 ->
  exists r f, @run_tree W f64 (Num_f64 L) Release 8 t = Ok r /\ dht_len r = dht_len d /\ transforms r f /\
    forall x k, length x = dht_len r -> (k < dht_len r)%nat -> Forall (fun v => is_finite v = true) x ->
      2 * (gain t * FloatSpec.size F64 x) <= bpow radix2 1023 ->
      is_finite (nth k (f x) (B754_zero false)) = true /\
      Rabs (B2R (nth k (f x) (B754_zero false)) - dht_at (map B2R x) k) <= 2 * s * (gain t * FloatSpec.size F64 x).
Proof.
  intros A B Hw Hf P E. pose proof (C57_f64_proof W L Debug t d A (or_intror (conj eq_refl B)) Hw Hf P E) as H.
  destruct (roundings t) as [[a b] c]. intros s Hs. destruct (H Hs) as (f & F & K).
  destruct (new_ok _ _ _ (agree_tree (N.le_refl _ : narrow W W) Release 8 t) E) as (r & E' & G). exists r, f. split; [exact E'|]. rewrite <- (ag_len _ _ G).
  split; [reflexivity|]. split; [exact (transforms_agree d r f G F)|]. exact K.
Qed.
Lemma C69_case_proof (W : width) L : accurate L -> rad4_small case_tree /\ within isize_max 8 case_tree /\ raders_fit case_tree /\ representable F64 case_tree /\
  exists d, @run_tree W f64 (Num_f64 L) Debug 8 case_tree = Ok d.
Proof.
  intros A. destruct (C54_case_proof W L A) as (H & _). destruct (C57_case_proof W L Debug A) as (_ & K). split; [exact H|exact K].
Qed.
