(** * Proofs of the properties in PropsRound.v *)
From Verif Require Export RoundSpec PropsRmsProof.
From Verif Require Import Lemmas RealDHT L2 NumSpec RootProofs.
From Flocq Require Import Core.
From Coq Require Import Reals Lra Lia NArith List.
Local Open Scope R_scope.

Lemma nearest_eq v z : Rabs (v - IZR z) < / 2 -> nearest v = z.
Proof. intros H. apply Rabs_lt_inv in H. unfold nearest. apply Zfloor_imp. rewrite plus_IZR. lra. Qed.

Lemma term_le n f j : (forall i, (i < n)%nat -> 0 <= f i) -> (j < n)%nat -> f j <= rsum n f.
Proof.
  intros H Hj. set (g := fun i => if (i =? j)%nat then f i else 0).
  assert (G : rsum n g = f j).
  { rewrite (rsum_single n j g Hj); unfold g; [now rewrite Nat.eqb_refl|]. intros i _ Hi. apply Nat.eqb_neq in Hi. now rewrite Hi. }
  rewrite <- G. apply rsum_le. intros i Hi. unfold g. destruct (i =? j)%nat; [lra|auto].
Qed.
Section Any.
  Context {T : Type} (F : fmt T) (N : Num T) (RN : rounded F N).
  Lemma component (x y : list R) j : (j < length x)%nat -> Rabs (nth j x 0 - nth j y 0) <= distance x y.
  Proof.
    intros Hj. unfold distance. rewrite <- sqrt_Rsqr_abs. apply sqrt_le_1_alt.
    apply (term_le _ (fun i => (nth i x 0 - nth i y 0) * (nth i x 0 - nth i y 0))); auto. intros. apply Rle_0_sqr.
  Qed.
  Lemma flo1 : 0 <= flo F <= 1.
  Proof. pose proof (r_lo _ _ RN). pose proof (r_lo_small _ _ RN). assert (1 <= 2 ^ 64) by (apply pow_R1_Rle; lra). nra. Qed.
  Lemma scale_bound x B : 0 <= B -> Forall (fun v => Rabs (fval F v) <= B) x -> scale F x <= sqrt (INR (length x)) * (B + 1).
  Proof.
    intros B0 H. unfold scale. pose proof flo1. pose proof (pos_INR (length x)). apply sqrt_le_of.
    - apply Rmult_le_pos; [apply sqrt_pos|lra].
    - replace (sqrt (INR (length x)) * (B + 1) * (sqrt (INR (length x)) * (B + 1))) with (sqrt (INR (length x)) * sqrt (INR (length x)) * ((B + 1) * (B + 1))) by ring.
      rewrite sqrt_sqrt by auto.
      apply Rle_trans with (INR (length x) * (B * B) + INR (length x) * (1 * 1)).
      + apply Rplus_le_compat.
        * rewrite <- rsum_const. apply rsum_le. intros j Hj. rewrite Forall_forall in H.
          assert (K : Rabs (nth j (map (fval F) x) 0) <= B).
          { destruct (nth_in_or_default j x (@nzero T N)) as [I|I].
            - rewrite (nth_indep _ 0 (fval F (@nzero T N))) by (rewrite map_length; auto). rewrite map_nth. now apply H.
            - rewrite (nth_indep _ 0 (fval F (@nzero T N))) by (rewrite map_length; auto). rewrite map_nth, I, (proj2 (r_zero _ _ RN)), Rabs_R0. exact B0. }
          apply Rabs_le_inv in K. nra.
        * apply Rmult_le_compat_l; auto. nra.
      + rewrite <- Rmult_plus_distr_l. apply Rmult_le_compat_l; auto. nra.
  Qed.

  Lemma survive m t n eps C B : close F N m t n eps C -> 0 <= B ->
    eps * (sqrt (INR n) * (B + 1)) <= / 5 -> C * (1 + eps) * (INR n * (sqrt (INR n) * (B + 1))) <= fhi F -> survives F N m t n B.
  Proof.
    intros (d & E & L & R) B0 HB Hc. destruct (twice F d _ _ R) as (f & O & X). destruct R as (e0 & C1 & _). rewrite L in X.
    exists d, f. split; [exact E|]. split; [exact L|]. split; [exact O|]. intros x zs Lx Hx.
    assert (Fx : Forall (ffin F) x) by (clear - Hx; induction Hx; constructor; tauto).
    assert (Bx : Forall (fun v => Rabs (fval F v) <= B) x) by (clear - Hx; induction Hx as [|v z x zs (_ & V & ?)]; constructor; auto; now rewrite V).
    pose proof (scale_bound x B B0 Bx) as S. rewrite Lx in S. assert (S0 : 0 <= scale F x) by apply sqrt_pos.
    pose proof (pos_INR n) as N0.
    destruct (X x Lx Fx) as [X1 X2].
    { eapply Rle_trans; [|exact Hc]. apply Rmult_le_compat_l; [nra|]. now apply Rmult_le_compat_l. }
    split; [exact X1|].
    assert (Lz : length zs = n) by (rewrite <- Lx; clear - Hx; induction Hx; simpl; congruence).
    assert (Ly : length (f (f x)) = n) by (rewrite <- L; apply (tr_len _ _ O), (tr_len _ _ O); congruence).
    apply (nth_ext _ _ (nearest (fval F nzero / INR n)) 0%Z); [rewrite map_length; congruence|]. rewrite map_length, Ly. intros j Hj.
    rewrite (map_nth (fun v => nearest (fval F v / INR n))). apply nearest_eq.
    assert (N1 : 1 <= INR n) by (apply (le_INR 1); lia).
    assert (Q : Rabs (fval F (nth j (f (f x)) nzero) - INR n * IZR (nth j zs 0%Z)) < INR n * / 2).
    { assert (D := component (map (fval F) (f (f x))) (map (fun v => INR n * fval F v) x) j ltac:(rewrite map_length, Ly; exact Hj)).
      rewrite (nth_indep _ 0 (fval F nzero)) in D by (rewrite map_length, Ly; exact Hj). rewrite map_nth in D.
      rewrite (nth_indep _ 0 (INR n * fval F nzero)) in D by (rewrite map_length, Lx; exact Hj). rewrite (map_nth (fun v => INR n * fval F v)) in D.
      assert (V : fval F (nth j x nzero) = IZR (nth j zs 0%Z)).
      { clear - Hx RN. revert j. induction Hx as [|v z x zs (_ & V & _)]; intros [|j]; simpl; auto; apply (r_zero _ _ RN). }
      rewrite V in D. apply (Rle_lt_trans _ _ _ D). apply (Rle_lt_trans _ _ _ X2).
      assert (s1 : 1 <= sqrt (INR n)) by (rewrite <- sqrt_1; apply sqrt_le_1_alt; exact N1).
      set (S' := sqrt (INR n) * (B + 1)) in *. assert (1 <= S') by (unfold S'; nra).
      assert (e1 : eps <= / 5) by nra.
      assert (P : ((1 + eps) * (1 + eps) - 1) * scale F x <= (2 + / 5) * (eps * S')).
      { replace ((1 + eps) * (1 + eps) - 1) with ((2 + eps) * eps) by ring. rewrite Rmult_assoc. apply Rmult_le_compat; nra. }
      replace (((1 + eps) * (1 + eps) - 1) * (INR n * scale F x)) with (INR n * (((1 + eps) * (1 + eps) - 1) * scale F x)) by ring.
      apply Rmult_lt_compat_l; lra. }
    replace (fval F (nth j (f (f x)) nzero) / INR n - IZR (nth j zs 0%Z)) with (/ INR n * (fval F (nth j (f (f x)) nzero) - INR n * IZR (nth j zs 0%Z))) by (field; lra).
    rewrite Rabs_mult, Rabs_pos_eq by (left; apply Rinv_0_lt_compat; lra).
    apply Rmult_lt_reg_l with (INR n); [lra|]. rewrite <- Rmult_assoc, Rinv_r, Rmult_1_l by lra. exact Q.
  Qed.
End Any.

(** ** powers of two and primes *)
Lemma survive_below {T} (F : fmt T) (N : Num T) (RN : rounded F N) m t n eps C B : close F N m t n eps C -> 0 <= B -> (0 < n)%nat ->
  usz n -> 1 <= C <= 64 -> bpow radix2 (-45) <= eps -> eps * (sqrt (INR n) * (B + 1)) <= / 5 -> bpow radix2 120 <= fhi F -> survives F N m t n B.
Proof.
  intros K B0 Hn U HC He H Hf. apply (survive F N RN m t n eps C B K B0 H).
  assert (N1 : 1 <= INR n) by (apply (le_INR 1); lia).
  assert (s1 : 1 <= sqrt (INR n)) by (rewrite <- sqrt_1; apply sqrt_le_1_alt; exact N1).
  set (S := sqrt (INR n) * (B + 1)) in *. assert (S1 : 1 <= S) by (unfold S; nra).
  change (bpow radix2 (-45)) with (/ 35184372088832) in He.
  assert (S2 : S <= 35184372088832) by nra. assert (e1 : eps <= / 5) by nra.
  assert (N2 : INR n <= bpow radix2 64).
  { rewrite INR_IZR_INZ. change (bpow radix2 64) with (IZR (2 ^ 64)). apply IZR_le. unfold usz in U. lia. }
  apply (Rle_trans _ (64 * 2 * (bpow radix2 64 * bpow radix2 45))).
  - apply Rmult_le_compat; [nra|nra|nra|]. apply Rmult_le_compat; [lra|lra|exact N2|]. exact S2.
  - apply (Rle_trans _ (bpow radix2 120)); [|exact Hf]. rewrite <- bpow_plus. replace (64 * 2) with (bpow radix2 7) by (simpl; lra).
    rewrite <- bpow_plus. apply bpow_le. lia.
Qed.
Lemma big32 : bpow radix2 120 <= fhi F32. Proof. cbn [F32 fhi]. apply bpow_le. lia. Qed.
Lemma big64 : bpow radix2 120 <= fhi F64. Proof. cbn [F64 fhi]. apply bpow_le. lia. Qed.
Lemma eps_cond a e S : 5 * a * S <= bpow radix2 e -> a * bpow radix2 (- e) * S <= / 5.
Proof.
  intros H. pose proof (bpow_gt_0 radix2 (- e)) as P.
  assert (Q : bpow radix2 (- e) * (5 * a * S) <= bpow radix2 (- e) * bpow radix2 e) by (apply Rmult_le_compat_l; lra).
  rewrite <- bpow_plus, Z.add_opp_diag_l in Q. simpl in Q. nra.
Qed.
Lemma eps_big a e : 1 <= a -> (e <= 45)%Z -> bpow radix2 (-45) <= a * bpow radix2 (- e).
Proof.
  intros A E. apply (Rle_trans _ (bpow radix2 (- e))); [apply bpow_le; lia|]. pose proof (bpow_gt_0 radix2 (- e)). nra.
Qed.
Lemma pow_pos16 b k : (0 < b -> 0 < 16 * b ^ k)%nat.
Proof. intros H. pose proof (Nat.pow_nonzero b k). lia. Qed.

Lemma C67_fours32_proof L m k B : accurate L -> usz (8 * (16 * 4 ^ k)) -> 0 <= B ->
  5 * (INR k + 1) * (sqrt (INR (16 * 4 ^ k)) * (B + 1)) <= bpow radix2 18 -> survives F32 (Num_f32 L) m (fours k) (16 * 4 ^ k) B.
Proof.
  intros A U B0 H. pose proof (pos_INR k).
  apply (survive_below F32 _ (ok32 L A) m _ _ _ _ B (fours_close32 L m k A U)); auto using big32; try lra.
  - apply pow_pos16; lia.
  - unfold usz in *. lia.
  - apply (eps_big _ 18); [lra|lia].
  - apply (eps_cond _ 18), H.
Qed.
Lemma C67_fours64_proof L m k B : accurate L -> usz (8 * (16 * 4 ^ k)) -> 0 <= B ->
  5 * (INR k + 1) * (sqrt (INR (16 * 4 ^ k)) * (B + 1)) <= bpow radix2 42 -> survives F64 (Num_f64 L) m (fours k) (16 * 4 ^ k) B.
Proof.
  intros A U B0 H. pose proof (pos_INR k).
  apply (survive_below F64 _ (ok64 L A) m _ _ _ _ B (fours_close64 L m k A U)); auto using big64; try lra.
  - apply pow_pos16; lia.
  - unfold usz in *. lia.
  - apply (eps_big _ 42); [lra|lia].
  - apply (eps_cond _ 42), H.
Qed.
Lemma C67_splits32_proof L m k B : accurate L -> usz (8 * (16 * 2 ^ k)) -> 0 <= B ->
  5 * (INR k + 4) * (sqrt (INR (16 * 2 ^ k)) * (B + 1)) <= bpow radix2 20 -> survives F32 (Num_f32 L) m (snd (splits k)) (16 * 2 ^ k) B.
Proof.
  intros A U B0 H. pose proof (pos_INR k).
  apply (survive_below F32 _ (ok32 L A) m _ _ _ _ B (splits_close32 L m k A U)); auto using big32; try lra.
  - apply pow_pos16; lia.
  - unfold usz in *. lia.
  - apply (eps_big _ 20); [lra|lia].
  - apply (eps_cond _ 20), H.
Qed.
Lemma C67_splits64_proof L m k B : accurate L -> usz (8 * (16 * 2 ^ k)) -> 0 <= B ->
  5 * (INR k + 3) * (sqrt (INR (16 * 2 ^ k)) * (B + 1)) <= bpow radix2 44 -> survives F64 (Num_f64 L) m (snd (splits k)) (16 * 2 ^ k) B.
Proof.
  intros A U B0 H. pose proof (pos_INR k).
  apply (survive_below F64 _ (ok64 L A) m _ _ _ _ B (splits_close64 L m k A U)); auto using big64; try lra.
  - apply pow_pos16; lia.
  - unfold usz in *. lia.
  - apply (eps_big _ 44); [lra|lia].
  - apply (eps_cond _ 44), H.
Qed.
Section Primes.
  Variables (k : nat) (B : R) (L : libm) (m : profile).
  Notation p := (16 * 2 ^ k + 1)%nat.
  Hypothesis A : accurate L.
  Hypothesis P : nprime (N.of_nat p).
  Hypothesis P32 : (N.of_nat p <= 2 ^ 32)%N.
  Hypothesis B0 : 0 <= B.
  Lemma p1 : 1 <= sqrt (INR p).
  Proof. rewrite <- sqrt_1. apply sqrt_le_1_alt. apply (le_INR 1). lia. Qed.
  Lemma prime_cond a S e : 60 * a * (INR p * S) <= bpow radix2 e -> 12 * sqrt (INR p) * (a * bpow radix2 (- e)) * (sqrt (INR p) * S) <= / 5.
  Proof.
    intros H. replace (12 * sqrt (INR p) * (a * bpow radix2 (- e)) * (sqrt (INR p) * S)) with (12 * a * bpow radix2 (- e) * (sqrt (INR p) * sqrt (INR p) * S)) by ring.
    rewrite sqrt_sqrt by apply pos_INR. apply eps_cond. lra.
  Qed.
  Lemma C67_primes32_proof : 60 * (INR k + 5) * (INR p * (B + 1)) <= bpow radix2 20 -> survives F32 (Num_f32 L) m (Rader (snd (splits k))) p B.
  Proof.
    intros H. pose proof (pos_INR k). pose proof p1.
    apply (survive_below F32 _ (ok32 L A) m _ _ _ _ B (primes_close32 L m k A P P32)); auto using big32; try lra; try lia.
    - unfold usz. lia.
    - rewrite <- Rmult_assoc. apply (eps_big _ 20); [nra|lia].
    - apply (prime_cond _ _ 20), H.
  Qed.
  Lemma C67_primes64_proof : 60 * (INR k + 4) * (INR p * (B + 1)) <= bpow radix2 44 -> survives F64 (Num_f64 L) m (Rader (snd (splits k))) p B.
  Proof.
    intros H. pose proof (pos_INR k). pose proof p1.
    apply (survive_below F64 _ (ok64 L A) m _ _ _ _ B (primes_close64 L m k A P P32)); auto using big64; try lra; try lia.
    - unfold usz. lia.
    - rewrite <- Rmult_assoc. apply (eps_big _ 44); [nra|lia].
    - apply (prime_cond _ _ 44), H.
  Qed.
End Primes.

(** 16-bit samples at length 2^20 in f64, 8-bit ones at 2^10 in f32, 16-bit ones at 65537 in f64 *)
Lemma C67_case_proof L m : accurate L ->
  survives F32 (Num_f32 L) m (snd (splits 6)) 1024 255 /\
  (exists n, N.of_nat n = 1048576%N /\ survives F64 (Num_f64 L) m (snd (splits 16)) n 32768) /\
  (exists n, N.of_nat n = 65537%N /\ survives F64 (Num_f64 L) m (Rader (snd (splits 12))) n 32768).
Proof.
  intros A. split; [|split].
  - assert (U : usz (8 * (16 * 2 ^ 6))) by reflexivity.
    pose proof (C67_splits32_proof L m 6 255 A U ltac:(lra)) as H.
    change (16 * 2 ^ 6)%nat with 1024%nat in *. apply H.
    replace (INR 1024) with (32 * 32) by (simpl; lra). rewrite sqrt_square by lra. simpl. lra.
  - exists (16 * 2 ^ 16)%nat. set (n := (16 * 2 ^ 16)%nat).
    assert (E : N.of_nat n = 1048576%N) by (unfold n; rewrite Nat2N.inj_mul, Nat2N.inj_pow; reflexivity). split; [exact E|].
    apply (C67_splits64_proof L m 16 32768 A); [unfold usz; fold n; lia|lra|]. fold n.
    replace (INR n) with (1024 * 1024) by (rewrite INR_IZR_INZ, <- nat_N_Z, E; simpl; lra). rewrite sqrt_square by lra. simpl. lra.
  - exists (16 * 2 ^ 12 + 1)%nat. set (n := (16 * 2 ^ 12 + 1)%nat).
    assert (E : N.of_nat n = 65537%N) by (unfold n; rewrite Nat2N.inj_add, Nat2N.inj_mul, Nat2N.inj_pow; reflexivity). split; [exact E|].
    apply (C67_primes64_proof 12 32768 L m A); fold n.
    + rewrite E. apply miller_rabin_ok. vm_compute. reflexivity.
    + rewrite E. discriminate.
    + lra.
    + replace (INR n) with 65537 by (rewrite INR_IZR_INZ, <- nat_N_Z, E; reflexivity). simpl. lra.
Qed.
Lemma survive_proof T (F : fmt T) (N : Num T) : rounded F N -> forall m t d eps C B, @build T N m t = Ok d -> rms_close F d (1 + eps) C -> 0 <= B ->
  eps * (sqrt (INR (dht_len d)) * (B + 1)) <= / 5 ->
  C * (1 + eps) * (INR (dht_len d) * (sqrt (INR (dht_len d)) * (B + 1))) <= fhi F -> survives F N m t (dht_len d) B.
Proof. intros RN m t d eps C B E R. apply (survive F N RN). exists d. auto. Qed.
