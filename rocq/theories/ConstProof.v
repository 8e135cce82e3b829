(** * The constant sqrt(1/2) of MixedRadix and the 3xn, 5xn, 6xn algorithms *)
From Verif Require Import Lemmas Contract NxnProof NxnInst MixedRadixProof MixedContract RealDHT MixedReal ButterfliesReal NxnReal MathUtils.
From Verif Require Import TreeReal ApiProof ApiReal.
From Verif Require Export ConstSpec.
From Coq Require Import Reals Lra Lia List Arith.
From Flocq Require Import Core IEEE754.BinarySingleNaN.
Local Open Scope R_scope.

Lemma scaled_length W H rho x : length (scaled_dht W H rho x) = length x.
Proof. unfold scaled_dht. now rewrite map_length, seq_length. Qed.
Lemma nth_scaled W H rho x k : (k < length x)%nat -> nth k (scaled_dht W H rho x) 0 = scaled_at W H rho x k.
Proof. intros. unfold scaled_dht. now rewrite nth_map_seq. Qed.

Section Cell.
  Variables (W H : nat) (x : list R).
  Hypothesis Wp : (0 < W)%nat.
  Hypothesis Hp : (0 < H)%nat.
  Hypothesis Lx : length x = (W * H)%nat.

  Lemma row_term rho r k : (r < W)%nat ->
    rsum H (fun s => (if (((s * W + r) mod W =? 0) || (k mod H =? 0))%nat then 1 else rho) *
                     (nth (s * W + r) x 0 * cas (ang (W * H) ((s * W + r) * k)))) =
    (if ((r =? 0) || (k mod H =? 0))%nat then 1 else rho) *
    rsum H (fun s => nth (s * W + r) x 0 * cas (ang (W * H) ((s * W + r) * k))).
  Proof.
    intros Hr. rewrite <- rsum_scal. apply rsum_ext. intros s Hs.
    now rewrite Nat.add_comm, Nat.mod_add, Nat.mod_small by lia.
  Qed.

  Lemma row0 q c : rsum H (fun s => nth (s * W + 0) x 0 * cas (ang (W * H) ((s * W + 0) * (q * H + c)))) = ar W H x 0 c.
  Proof.
    unfold ar, hart, xr. apply rsum_ext. intros s Hs. f_equal.
    rewrite <- ang_mul. rewrite <- (cas_ang_mod H (s * c)) by lia.
    replace ((s * W + 0) * (q * H + c))%nat with (W * (s * (q * H + c)))%nat by ring.
    rewrite ang_scale by lia. rewrite <- (cas_ang_mod H (s * (q * H + c))) by lia. do 2 f_equal.
    replace (s * (q * H + c))%nat with (s * c + s * q * H)%nat by ring. now rewrite Nat.mod_add by lia.
  Qed.

  Lemma scaled_cell rho q c : (c < H)%nat ->
    scaled_at W H rho x (q * H + c) =
    if (c =? 0)%nat then dht_at x (q * H + c) else rho * dht_at x (q * H + c) + (1 - rho) * ar W H x 0 c.
  Proof.
    intros Hc. rewrite <- (row0 q c). unfold scaled_at, dht_at. rewrite Lx, !rsum_stride.
    assert (Ek : ((q * H + c) mod H = c)%nat) by (rewrite Nat.add_comm, Nat.mod_add, Nat.mod_small; lia).
    rewrite (rsum_ext W _ (fun r => (if ((r =? 0) || (c =? 0))%nat then 1 else rho) *
      rsum H (fun s => nth (s * W + r) x 0 * cas (ang (W * H) ((s * W + r) * (q * H + c)))))).
    2:{ intros r Hr. rewrite row_term by auto. now rewrite Ek. }
    set (g r := rsum H _).
    destruct (Nat.eqb_spec c 0) as [->|N].
    - apply rsum_ext. intros r Hr. rewrite Bool.orb_true_r. cbv iota. unfold g. ring.
    - rewrite (rsum_ext W _ (fun r => rho * g r + (if (r =? 0)%nat then (1 - rho) * g 0%nat else 0))).
      + rewrite rsum_add, rsum_scal. f_equal. rewrite (rsum_single W 0); auto.
        intros j _ Hj. destruct (Nat.eqb_spec j 0); [lia|auto].
      + intros r Hr. fold (g r). destruct (Nat.eqb_spec r 0) as [->|]; cbv [orb]; ring.
  Qed.

  Lemma cas_le t : Rabs (cas t) <= sqrt 2.
  Proof.
    rewrite <- sqrt_Rsqr_abs. apply sqrt_le_1_alt. unfold cas, Rsqr.
    pose proof (sin2_cos2 t) as S. unfold Rsqr in S. pose proof (Rle_0_sqr (cos t - sin t)) as Q. unfold Rsqr in Q. nra.
  Qed.

  Lemma scaled_bound rho k : Rabs (scaled_at W H rho x k - dht_at x k) <= Rabs (rho - 1) * sqrt 2 * norm1 x.
  Proof.
    unfold scaled_at, dht_at, norm1. rewrite <- rsum_sub, <- rsum_scal.
    eapply Rle_trans; [apply rsum_abs|]. apply rsum_le. intros j Hj. cbv beta.
    set (b := (_ || _)%bool). set (t := cas _). set (v := nth j x 0).
    replace ((if b then 1 else rho) * (v * t) - v * t) with ((if b then 0 else rho - 1) * t * v) by (destruct b; ring).
    rewrite !Rabs_mult. apply Rmult_le_compat_r; [apply Rabs_pos|].
    apply Rmult_le_compat; try apply Rabs_pos; [|apply cas_le].
    destruct b; [rewrite Rabs_R0; apply Rabs_pos|lra].
  Qed.
End Cell.

Section Level.
  Context (cst : R).
  Local Hint Extern 0 (Num R) => exact (RNum cst) : typeclass_instances.
  Let rho := cst * sqrt 2.

  Lemma mixed_scaled dw dh fw fh x : (0 < dht_len dw)%nat -> (0 < dht_len dh)%nat ->
    (forall y, length y = dht_len dw -> fw y = dht_spec y) -> (forall y, length y = dht_len dh -> fh y = dht_spec y) ->
    length x = (dht_len dw * dht_len dh)%nat ->
    mixed_fun dw dh fw fh x = scaled_dht (dht_len dw) (dht_len dh) rho x.
  Proof.
    intros Wp Hp Sw Sh Lx. set (W := dht_len dw) in *. set (H := dht_len dh) in *.
    assert (LL : length (mixed_fun dw dh fw fh x) = (W * H)%nat) by (unfold mixed_fun, cols_fun; now rewrite tab_length).
    apply (nth_ext _ _ 0 0); [now rewrite LL, scaled_length|].
    intros k Hk. rewrite LL in Hk. rewrite nth_scaled by (now rewrite Lx).
    rewrite (Nat.div_mod k H) by lia. rewrite (Nat.mul_comm H).
    assert (k mod H < H)%nat by (apply Nat.mod_upper_bound; lia).
    assert (k / H < W)%nat by (apply Nat.div_lt_upper_bound; lia).
    rewrite (scaled_cell W H x Wp Hp Lx) by auto. unfold mixed_fun. fold W H.
    now apply mixed_cell_real.
  Qed.

  Lemma scaled_len0 W H r (x : list R) : length x = 0%nat -> length (scaled_dht W H r x) = 0%nat.
  Proof. intros. now rewrite scaled_length. Qed.

  Lemma const_mixed dw dh : dht_ok dw dht_spec -> dht_ok dh dht_spec ->
    dht_ok (mixed_radix dw dh) (scaled_dht (dht_len dw) (dht_len dh) rho).
  Proof.
    intros I1 I2. destruct (mixed_radix_ok dw dh _ _ I1 I2) as [O _].
    destruct (Nat.eq_dec (dht_len dw * dht_len dh) 0) as [Z|Z].
    - set (f := scaled_dht _ _ rho). assert (F : forall x, length x = 0%nat -> length (f x) = 0%nat) by (intros; now apply scaled_len0).
      clearbody f. unfold mixed_radix in *. cbv zeta in *. rewrite Z in *. apply boilerplate_zero, F.
    - apply (dht_ok_ext _ _ _ O). intros x Hx. apply mixed_scaled; auto; nia.
  Qed.
  Lemma const_3 d : dht_ok d dht_spec -> fits 3 d -> dht_ok (mixed_radix_3xn d) (scaled_dht 3 (dht_len d) rho).
  Proof.
    intros I F. destruct (Nat.eq_dec (dht_len d) 0) as [Z|Z]; [apply nxn_zero; auto using scaled_len0|].
    eapply dht_ok_ext; [apply mixed_radix_3xn_ok; eauto|]. intros x Hx. rewrite radix3_fun_mixed.
    apply (mixed_scaled butterfly3); auto; try (simpl; lia). apply bf3_real.
  Qed.
  Lemma const_5 d : dht_ok d dht_spec -> fits 5 d -> dht_ok (mixed_radix_5xn d) (scaled_dht 5 (dht_len d) rho).
  Proof.
    intros I F. destruct (Nat.eq_dec (dht_len d) 0) as [Z|Z]; [apply nxn_zero; auto using scaled_len0|].
    eapply dht_ok_ext; [apply mixed_radix_5xn_ok; eauto|]. intros x Hx. rewrite radix5_fun_mixed.
    apply (mixed_scaled butterfly5); auto; try (simpl; lia). apply bf5_real.
  Qed.
  Lemma const_6 d : dht_ok d dht_spec -> fits 6 d -> dht_ok (mixed_radix_6xn d) (scaled_dht 6 (dht_len d) rho).
  Proof.
    intros I F. destruct (Nat.eq_dec (dht_len d) 0) as [Z|Z]; [apply nxn_zero; auto using scaled_len0|].
    eapply dht_ok_ext; [apply mixed_radix_6xn_ok; eauto|]. intros x Hx. rewrite radix6_fun_mixed.
    apply (mixed_scaled butterfly6); auto; try (simpl; lia). apply bf6_real.
  Qed.
End Level.

(** ** the value of the library's constant *)
Lemma lib_root_half_val : lib_root_half = IZR 11863283 * / 16777216.
Proof.
  unfold lib_root_half.
  assert (E : B2SF (f32_sqrt f32_half) = SpecFloat.S754_finite false 11863283 (-24)) by (vm_compute; reflexivity).
  destruct (f32_sqrt f32_half) as [| | |s m e H]; try discriminate. simpl in E. injection E as -> -> ->.
  unfold B2R, F2R. simpl. reflexivity.
Qed.

Lemma lib_rho_gap : / 2 ^ 26 < 1 - lib_root_half * sqrt 2 < / 2 ^ 25.
Proof.
  rewrite lib_root_half_val.
  assert (S1 : 1.4142135623 < sqrt 2).
  { apply Rsqr_incrst_0; [|lra|apply sqrt_pos]. rewrite Rsqr_sqrt by lra. unfold Rsqr. lra. }
  assert (S2 : sqrt 2 < 1.4142135624).
  { apply Rsqr_incrst_0; [|apply sqrt_pos|lra]. rewrite Rsqr_sqrt by lra. unfold Rsqr. lra. }
  lra.
Qed.

(** ** an impulse at position 1 shows the error *)
Definition impulse1 (n : nat) : list R := map (fun j => if (j =? 1)%nat then 1 else 0) (seq 0 n).
Lemma impulse1_length n : length (impulse1 n) = n.
Proof. unfold impulse1. now rewrite map_length, seq_length. Qed.
Lemma nth_impulse1 n j : (j < n)%nat -> nth j (impulse1 n) 0 = if (j =? 1)%nat then 1 else 0.
Proof. intros. unfold impulse1. now rewrite nth_map_seq by lia. Qed.
Lemma impulse1_norm n : (2 <= n)%nat -> norm1 (impulse1 n) = 1.
Proof.
  intros. unfold norm1. rewrite impulse1_length, (rsum_single n 1).
  - rewrite nth_impulse1 by lia. simpl. apply Rabs_R1.
  - lia.
  - intros j Hj N. rewrite nth_impulse1 by lia. destruct (Nat.eqb_spec j 1); [lia|]. apply Rabs_R0.
Qed.

Lemma cas_ge1 t : 0 <= t <= PI / 2 -> 1 <= cas t.
Proof.
  intros. unfold cas. pose proof PI_RGT_0. pose proof (sin2_cos2 t) as S. unfold Rsqr in S.
  assert (0 <= cos t) by (apply cos_ge_0; lra). assert (0 <= sin t) by (apply sin_ge_0; lra).
  pose proof (COS_bound t). pose proof (SIN_bound t). nra.
Qed.
Lemma cas_first n : (4 <= n)%nat -> 1 <= cas (ang n 1).
Proof.
  intros Hn. apply cas_ge1. unfold ang. simpl (INR 1). pose proof PI_RGT_0.
  assert (4 <= INR n) by (apply (le_INR 4) in Hn; simpl in Hn; lra). split.
  - unfold Rdiv. apply Rmult_le_pos; [lra|]. left. apply Rinv_0_lt_compat. lra.
  - apply Rmult_le_reg_r with (INR n); [lra|]. unfold Rdiv at 1. rewrite Rmult_assoc, Rinv_l by lra. nra.
Qed.

Lemma impulse_error W H rho : (2 <= W)%nat -> (2 <= H)%nat ->
  let x := impulse1 (W * H) in
  Rabs (rho - 1) * norm1 x <= Rabs (nth 1 (scaled_dht W H rho x) 0 - dht_at x 1).
Proof.
  intros HW HH x. assert (4 <= W * H)%nat by nia. unfold x. rewrite impulse1_norm by lia.
  rewrite nth_scaled by (rewrite impulse1_length; lia). 
  replace (scaled_at W H rho (impulse1 (W * H)) 1 - dht_at (impulse1 (W * H)) 1) with ((rho - 1) * cas (ang (W * H) 1)).
  - rewrite Rabs_mult. apply Rmult_le_compat_l; [apply Rabs_pos|].
    pose proof (cas_first (W * H) ltac:(lia)). rewrite Rabs_pos_eq; lra.
  - unfold scaled_at, dht_at. rewrite <- rsum_sub, impulse1_length, (rsum_single (W * H) 1); [|lia|].
    + rewrite !Nat.mod_small by lia. rewrite nth_impulse1 by lia. simpl. ring.
    + intros j Hj N. rewrite nth_impulse1 by lia. destruct (Nat.eqb_spec j 1); [lia|]. ring.
Qed.

(** ** the same at the level of the trait *)
Section Dev.
  Context (cst : R).
  Local Hint Extern 0 (Num R) => exact (RNum cst) : typeclass_instances.
  Let rho := cst * sqrt 2.

  Lemma scaled_deviates d W H e : transforms d (scaled_dht W H rho) -> dht_len d = (W * H)%nat ->
    (2 <= W)%nat -> (2 <= H)%nat -> e < Rabs (rho - 1) -> deviates cst d e.
  Proof.
    intros Td L HW HH He. assert (4 <= W * H)%nat by nia. exists (impulse1 (W * H)), (scaled_dht W H rho (impulse1 (W * H))).
    rewrite impulse1_length. repeat split; auto.
    - pose proof (process_transforms d _ [impulse1 (W * H)] Td ltac:(lia)) as P. simpl in P. rewrite !app_nil_r in P. apply P.
      split; [discriminate|]. constructor; auto. now rewrite impulse1_length.
    - pose proof (impulse_error W H rho HW HH) as P. cbv zeta in P. eapply Rlt_le_trans; [|exact P].
      rewrite impulse1_norm by lia. lra.
  Qed.
End Dev.
