(** * Proofs of C32 and C33 *)
From Verif Require Import Lemmas Contract NxnProof NxnInst MixedRadixProof MixedContract RealDHT MixedReal NxnReal.
From Verif Require Import TreeReal ApiProof ApiReal.
From Verif Require Export ConstProof.
From Coq Require Import Reals Lra Lia List Arith.
Local Open Scope R_scope.

Section P.
  Context (cst : R).
  Local Hint Extern 0 (Num R) => exact (RNum cst) : typeclass_instances.
  Lemma C33_mixed_proof dw dh : transforms dw dht_spec -> transforms dh dht_spec ->
    transforms (mixed_radix dw dh) (scaled_dht (dht_len dw) (dht_len dh) (cst * sqrt 2)).
  Proof.
    intros H1 H2. exact (proj1 (transforms_ok _ _) (const_mixed cst dw dh (proj2 (transforms_ok _ _) H1) (proj2 (transforms_ok _ _) H2))).
  Qed.
  Let small k (d : Dht R) : Prop := (dht_inplace_scratch d <= k * dht_len d)%nat /\ dht_oop_scratch d = 0%nat.
  Lemma C33_3_proof d : transforms d dht_spec -> (dht_inplace_scratch d <= 3 * dht_len d)%nat -> dht_oop_scratch d = 0%nat ->
    transforms (mixed_radix_3xn d) (scaled_dht 3 (dht_len d) (cst * sqrt 2)).
  Proof. intros H1 H2 H3. exact (proj1 (transforms_ok _ _) (const_3 cst d (proj2 (transforms_ok _ _) H1) (conj H2 H3))). Qed.
  Lemma C33_5_proof d : transforms d dht_spec -> (dht_inplace_scratch d <= 5 * dht_len d)%nat -> dht_oop_scratch d = 0%nat ->
    transforms (mixed_radix_5xn d) (scaled_dht 5 (dht_len d) (cst * sqrt 2)).
  Proof. intros H1 H2 H3. exact (proj1 (transforms_ok _ _) (const_5 cst d (proj2 (transforms_ok _ _) H1) (conj H2 H3))). Qed.
  Lemma C33_6_proof d : transforms d dht_spec -> (dht_inplace_scratch d <= 6 * dht_len d)%nat -> dht_oop_scratch d = 0%nat ->
    transforms (mixed_radix_6xn d) (scaled_dht 6 (dht_len d) (cst * sqrt 2)).
  Proof. intros H1 H2 H3. exact (proj1 (transforms_ok _ _) (const_6 cst d (proj2 (transforms_ok _ _) H1) (conj H2 H3))). Qed.
End P.

Lemma C33_bound_proof W H rho x k : length x = (W * H)%nat -> (k < length x)%nat ->
  Rabs (nth k (scaled_dht W H rho x) 0 - nth k (dht_spec x) 0) <= Rabs (rho - 1) * sqrt 2 * norm1 x.
Proof. intros Lx Hk. rewrite nth_scaled, nth_dht_spec by auto. apply scaled_bound. Qed.

Section Q.
  Let c := lib_root_half.
  Local Hint Extern 0 (Num R) => exact (RNum lib_root_half) : typeclass_instances.
  Let gap : / 2 ^ 26 < Rabs (lib_root_half * sqrt 2 - 1).
  Proof. pose proof lib_rho_gap. rewrite Rabs_left1; lra. Qed.
  Lemma C32_mixed_proof dw dh : transforms dw dht_spec -> transforms dh dht_spec -> (2 <= dht_len dw)%nat -> (2 <= dht_len dh)%nat ->
    deviates lib_root_half (mixed_radix dw dh) (/ 2 ^ 26).
  Proof. intros H1 H2 L1 L2. exact (scaled_deviates _ _ _ _ _ (C33_mixed_proof _ dw dh H1 H2) eq_refl L1 L2 gap). Qed.
  Lemma C32_3_proof d : transforms d dht_spec -> (2 <= dht_len d)%nat -> (dht_inplace_scratch d <= 3 * dht_len d)%nat -> dht_oop_scratch d = 0%nat ->
    deviates lib_root_half (mixed_radix_3xn d) (/ 2 ^ 26).
  Proof. intros H1 L H2 H3. exact (scaled_deviates _ _ _ _ _ (C33_3_proof _ d H1 H2 H3) eq_refl ltac:(lia) L gap). Qed.
  Lemma C32_5_proof d : transforms d dht_spec -> (2 <= dht_len d)%nat -> (dht_inplace_scratch d <= 5 * dht_len d)%nat -> dht_oop_scratch d = 0%nat ->
    deviates lib_root_half (mixed_radix_5xn d) (/ 2 ^ 26).
  Proof. intros H1 L H2 H3. exact (scaled_deviates _ _ _ _ _ (C33_5_proof _ d H1 H2 H3) eq_refl ltac:(lia) L gap). Qed.
  Lemma C32_6_proof d : transforms d dht_spec -> (2 <= dht_len d)%nat -> (dht_inplace_scratch d <= 6 * dht_len d)%nat -> dht_oop_scratch d = 0%nat ->
    deviates lib_root_half (mixed_radix_6xn d) (/ 2 ^ 26).
  Proof. intros H1 L H2 H3. exact (scaled_deviates _ _ _ _ _ (C33_6_proof _ d H1 H2 H3) eq_refl ltac:(lia) L gap). Qed.
End Q.

Lemma C32_f32_proof : Rabs (lib_root_half * sqrt 2 - 1) <= / 2 ^ 24.
Proof. pose proof lib_rho_gap. rewrite Rabs_left1; lra. Qed.
Lemma C32_f64_proof : Rabs (6369051672525773 * / 2 ^ 53 * sqrt 2 - 1) <= / 2 ^ 53.
Proof.
  set (c := 6369051672525773 * / 2 ^ 53). assert (S : sqrt 2 * sqrt 2 = 2) by (apply sqrt_sqrt; lra).
  pose proof (sqrt_lt_R0 2 ltac:(lra)). assert (Hc : 0 < c) by (unfold c; lra).
  assert (E : (c * sqrt 2 - 1) * (c * sqrt 2 + 1) = 2 * (c * c) - 1) by (replace 2 with (sqrt 2 * sqrt 2) at 3 by auto; ring).
  assert (D : Rabs (2 * (c * c) - 1) <= 1.3 * / 2 ^ 53) by (apply Rabs_le; unfold c; lra).
  rewrite <- E, Rabs_mult in D. rewrite (Rabs_pos_eq (_ + 1)) in D by nra.
  pose proof (Rabs_pos (c * sqrt 2 - 1)). assert (0 < c * sqrt 2) by (apply Rmult_lt_0_compat; auto).
  assert (S2 : 1 < sqrt 2) by (rewrite <- sqrt_1 at 1; apply sqrt_lt_1_alt; lra). assert (0.5 <= c * sqrt 2) by (unfold c in *; nra).
  set (a := Rabs _) in *. set (b := c * sqrt 2) in *. nra.
Qed.

Lemma C32_case_proof : let d := @butterfly2 R (RNum lib_root_half) in
  transforms d dht_spec /\ (2 <= dht_len d)%nat /\ (dht_inplace_scratch d <= 3 * dht_len d)%nat /\ dht_oop_scratch d = 0%nat.
Proof. cbv zeta. split; [exact (proj1 (transforms_ok _ _) (bf2_exact _))|simpl; lia]. Qed.
