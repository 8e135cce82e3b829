(** * Proofs behind PropsMath.v *)
From Verif Require Import NumTheory MathUtils F32Sqrt Residues RadersProof Raders.
From Verif Require Export MathProofs RootProofs.
From Coq Require Import Lia NArith List.
Import ListNotations.
Local Open Scope N_scope.

Lemma generator_order p r : nprime p -> 0 < r < p -> (generator p r <-> no_small_order (N.to_nat p) (N.to_nat r)).
Proof.
  intros Pp Hr. pose proof (proj1 (nprime_nat p) Pp) as Sp. split.
  - intros G. apply generates_order; auto.
    + rewrite Nat.mod_small; lia.
    + intros k Hk. destruct (G (N.of_nat k)) as [j Hj]; [lia|].
      exists (N.to_nat j mod (N.to_nat p - 1))%nat. split; [apply Nat.mod_upper_bound; lia|]. unfold pw.
      assert (E : (N.to_nat r ^ N.to_nat j mod N.to_nat p)%nat = k).
      { rewrite <- npow_mod_nat by lia. rewrite Hj. apply Nat2N.id. }
      rewrite <- E.
      rewrite (Nat.div_mod (N.to_nat j) (N.to_nat p - 1)) at 2 by lia.
      rewrite Nat.pow_add_r, <- Nat.mul_mod_idemp_l by lia.
      assert (F : ((N.to_nat r ^ ((N.to_nat p - 1) * (N.to_nat j / (N.to_nat p - 1)))) mod N.to_nat p = 1)%nat).
      { rewrite Nat.pow_mul_r, <- pow_mod_l, fermat_std, Nat.pow_1_l; auto; try lia; rewrite Nat.mod_small; lia. }
      rewrite F. now rewrite Nat.mul_1_l.
  - intros O a Ha. destruct (order_generates _ _ Sp O (N.to_nat a)) as (j & _ & Ej); [lia|].
    exists (N.of_nat j). apply N2Nat.inj. rewrite npow_mod_nat, Nat2N.id by lia. exact Ej.
Qed.

Lemma C28_proof m p : nprime p -> 3 <= p <= 2 ^ 32 ->
  exists r, primitive_root m p = Ok (Some r) /\ 1 < r < p /\ generator p r /\
    forall r', 1 < r' < r -> ~ generator p r'.
Proof.
  intros Pp Hp. destruct (primitive_root_ok m p Pp Hp) as (r & E & Hr & O & M).
  exists r. split; auto. split; [lia|]. split.
  - apply generator_order; auto. lia.
  - intros r' Hr' G. apply (M r'); [lia|]. apply generator_order; auto. lia.
Qed.
Lemma C28_inverse_proof m p : nprime (N.of_nat p) -> (3 <= p)%nat -> N.of_nat p <= 2 ^ 32 ->
  exists r s, raders_roots m p = Ok (r, s) /\ (r < p)%nat /\ (s < p)%nat /\ ((r * s) mod p = 1)%nat /\
    generator (N.of_nat p) (N.of_nat r) /\ generator (N.of_nat p) (N.of_nat s).
Proof.
  intros Pp H3 Hp. destruct (raders_roots_ok m p Pp H3 Hp) as (r & s & E & Hr & Hs & Or & Os & M).
  assert (s <> 0)%nat by (intros ->; rewrite Nat.mul_0_r, Nat.mod_0_l in M; lia).
  exists r, s. split; auto. split; [lia|]. split; auto. split; auto.
  split; apply generator_order; auto; try lia; now rewrite !Nat2N.id.
Qed.

Lemma C29_refuted_proof m : exists base exponent modulo, base < modulo <= 2 ^ 32 /\ exponent < 2 ^ 64 /\
  modular_exponent m base exponent modulo <> Ok (base ^ exponent mod modulo).
Proof.
  exists 0, 0, 1. split; [split; [reflexivity|discriminate]|]. split; [reflexivity|].
  destruct m; vm_compute; discriminate.
Qed.
Lemma C29_proof m base e p : base < p -> p <= 2 ^ 32 -> e < 2 ^ 64 -> p <> 1 \/ e <> 0 ->
  modular_exponent m base e p = Ok (base ^ e mod p).
Proof.
  intros Hb Hp He Hpe. apply modular_exponent_ok; auto. destruct Hpe; [left|right]; lia.
Qed.

Lemma C30_terminates_proof m n : 1 <= n -> n < 2 ^ 64 ->
  exists l, distinct_prime_factors m n = Ok l /\ forall q, nprime q -> (q | n) -> exists x, In x l /\ (q | x).
Proof.
  intros H1 H2. destruct (factors_run m n H1 H2) as (n' & r & E & Hn' & D & _).
  eexists. split; [exact E|]. intros q Pq Dq. apply (D q Pq) in Dq as [I|I].
  - exists q. split; [apply in_or_app; auto|apply N.divide_refl].
  - exists n'. split; auto. apply in_or_app. right. destruct (N.ltb_spec 1 n'); [now left|].
    exfalso. apply N.divide_pos_le in I; [|lia]. destruct Pq. lia.
Qed.
Lemma C30_refuted_proof m : exists n, 1 <= n < 2 ^ 64 /\
  exists x, ~ nprime x /\ distinct_prime_factors m n = Ok [x].
Proof.
  destruct (factors_wrong m) as [P E]. exists (16777259 * 16777259). split; [split; [discriminate|reflexivity]|].
  exists (16777259 * 16777259). split; auto.
  intros [_ H]. destruct (H 16777259); [now exists 16777259|discriminate|discriminate].
Qed.
Lemma C30_zero_proof m : distinct_prime_factors m 0 = Hang.
Proof.
  unfold distinct_prime_factors. change (0 mod 2 =? 0) with true. cbv iota.
  replace (strip 2 0) with (Hang (A := N)); [reflexivity|]. unfold strip, while.
  assert (E : forall n, steps n (fun n => r <- u64_rem n 2 ;; if r =? 0 then n' <- u64_div n 2 ;; Ok (inl n') else Ok (inr n)) 0 = Ok (inl (B := N) 0)).
  { induction n as [|n IH]; [reflexivity|]. cbn [steps]. rewrite IH. cbn [bind]. exact IH. }
  now rewrite E.
Qed.

Lemma C31_refuted_proof : exists p, nprime p /\ p < 2 ^ 64 /\ primitive_root Debug p = Panic /\
  exists r, primitive_root Release p = Ok (Some r) /\ 1 < r < p /\ ~ generator p r.
Proof.
  destruct root_search_overflow as (P & E1 & E2 & N). exists 4294967311. split; auto. split; [reflexivity|].
  split; auto. exists 2. split; auto. split; [split; reflexivity|]. rewrite generator_order; auto. split; reflexivity.
Qed.
