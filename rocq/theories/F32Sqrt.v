(** * The f32 square root used as a loop bound in distinct_prime_factors *)
From Verif Require Import MathUtils.
From Coq Require Import Reals Lra Lia Psatz.
From Flocq Require Import Core IEEE754.BinarySingleNaN.
Local Open Scope R_scope.

Notation fx := (SpecFloat.fexp 24 128).
Notation rn := (round radix2 fx ZnearestE).

Local Instance fx_valid : Valid_exp fx.
Proof. apply (fexp_correct 24 128). reflexivity. Qed.
Local Instance fx_mono : Monotone_exp fx.
Proof. apply (fexp_monotone 24 128). Qed.

Lemma fx_eq e : fx e = Z.max (e - 24) (-149).
Proof. reflexivity. Qed.

Lemma format_int (k : Z) : (Z.abs k < 2 ^ 24)%Z -> generic_format radix2 fx (IZR k).
Proof.
  intros Hk. apply generic_format_FLT.
  exists (Float radix2 k 0); simpl; [unfold F2R; simpl; ring|exact Hk|vm_compute; discriminate].
Qed.

Lemma format_bpow (e : Z) : (0 <= e)%Z -> generic_format radix2 fx (bpow radix2 e).
Proof. intros. apply generic_format_FLT_bpow; [reflexivity|unfold SpecFloat.emin; lia]. Qed.

Lemma f32_of_u64_val n : (n < 2 ^ 64)%N ->
  B2R (f32_of_u64 n) = rn (IZR (Z.of_N n)) /\ is_finite (f32_of_u64 n) = true /\ Bsign (f32_of_u64 n) = false.
Proof.
  intros Hn. unfold f32_of_u64.
  pose proof (binary_normalize_correct 24 128 eq_refl eq_refl mode_NE (Z.of_N n) 0 false) as H.
  cbv zeta in H. simpl round_mode in H.
  replace (F2R {| Fnum := Z.of_N n; Fexp := 0 |}) with (IZR (Z.of_N n)) in H by (unfold F2R; simpl; ring).
  assert (L : 0 <= rn (IZR (Z.of_N n)) <= bpow radix2 64).
  { split.
    - apply round_ge_generic; try typeclasses eauto; [apply generic_format_0|]. apply IZR_le. lia.
    - apply round_le_generic; try typeclasses eauto; [apply format_bpow; lia|].
      rewrite <- (IZR_Zpower radix2 64) by lia. apply IZR_le. simpl (Zpower _ _). lia. }
  rewrite Rlt_bool_true in H.
  - destruct H as (H1 & H2 & H3). repeat split; auto. rewrite H3.
    destruct (Rcompare_spec (IZR (Z.of_N n)) 0) as [C|C|C]; auto.
    apply (lt_IZR _ 0) in C. lia.
  - rewrite Rabs_pos_eq by tauto. apply Rle_lt_trans with (1 := proj2 L). apply bpow_lt. lia.
Qed.

Lemma sqrt_limit_val n : (n < 2 ^ 64)%N ->
  sqrt_limit n = (Z.to_N (Zfloor (rn (sqrt (rn (IZR (Z.of_N n)))))) + 1)%N.
Proof.
  intros Hn. destruct (f32_of_u64_val n Hn) as (V & F & S).
  unfold sqrt_limit, u64_of_f32. do 2 f_equal.
  pose proof (Btrunc_correct 24 128 eq_refl (f32_sqrt (f32_of_u64 n))) as B.
  pose proof (Bsqrt_correct 24 128 eq_refl eq_refl mode_NE (f32_of_u64 n)) as (Q & _). simpl round_mode in Q.
  fold (f32_sqrt (f32_of_u64 n)) in Q. rewrite Q, V in B.
  rewrite round_FIX_IZR in B. apply eq_IZR in B. rewrite B.
  apply Ztrunc_floor. apply round_ge_generic; try typeclasses eauto; [apply generic_format_0|]. apply sqrt_pos.
Qed.

Lemma sqrt_bpow e : sqrt (bpow radix2 (e + e)) = bpow radix2 e.
Proof. rewrite bpow_plus. apply sqrt_square, bpow_ge_0. Qed.

Lemma sqrt_limit_le n : (n < 2 ^ 64)%N -> (1 <= sqrt_limit n <= 2 ^ 32 + 1)%N.
Proof.
  intros Hn. rewrite sqrt_limit_val by auto.
  assert (L : rn (sqrt (rn (IZR (Z.of_N n)))) <= bpow radix2 32).
  { apply round_le_generic; try typeclasses eauto; [apply format_bpow; lia|].
    rewrite <- (sqrt_bpow 32). apply sqrt_le_1_alt. simpl Z.add.
    apply round_le_generic; try typeclasses eauto; [apply format_bpow; lia|].
    rewrite <- (IZR_Zpower radix2 64) by lia. apply IZR_le. simpl (Zpower _ _). lia. }
  assert (Zfloor (rn (sqrt (rn (IZR (Z.of_N n))))) <= 2 ^ 32)%Z.
  { apply le_IZR. eapply Rle_trans; [apply Zfloor_lb|].
    change (IZR (2 ^ 32)) with (IZR (Zpower radix2 32)). rewrite IZR_Zpower by lia. exact L. }
  lia.
Qed.

(** the bound never cuts the trial division short, below 2^48 *)
Lemma sqrt_limit_gt n : (n < 2 ^ 48)%N -> (N.sqrt n < sqrt_limit n)%N.
Proof.
  intros Hn. rewrite sqrt_limit_val by (eapply N.lt_trans; [exact Hn|reflexivity]).
  set (s := Z.of_N (N.sqrt n)). set (z := Z.of_N n). set (x := IZR z).
  assert (Hs : (s * s <= z < (s + 1) * (s + 1))%Z).
  { unfold s, z. pose proof (N.sqrt_spec n ltac:(lia)) as [A B]. rewrite <- N.add_1_r in B. split; nia. }
  assert (Hs0 : (0 <= s)%Z) by (unfold s; lia).
  assert (Hs24 : (s < 2 ^ 24)%Z) by (unfold z in *; nia).
  assert (Fs : generic_format radix2 fx (IZR s)) by (apply format_int; lia).
  cut (IZR s <= rn (sqrt (rn x))).
  { intros L. assert (s <= Zfloor (rn (sqrt (rn x))))%Z by (now apply Zfloor_lub). unfold s in *. lia. }
  destruct (Z.eq_dec s 0) as [E0|Hs1].
  { rewrite E0. apply round_ge_generic; try typeclasses eauto; [apply generic_format_0|apply sqrt_pos]. }
  destruct (Rle_lt_dec (IZR s * IZR s) (rn x)) as [L|L].
  { apply round_ge_generic; try typeclasses eauto; auto.
    rewrite <- (sqrt_square (IZR s)) by (apply IZR_le; lia). now apply sqrt_le_1_alt. }
  (* rn x < s^2 <= x *)
  apply round_N_ge_midp; auto; try typeclasses eauto.
  set (e := (mag radix2 (IZR s) - 1)%Z).
  assert (Hsr : 1 <= IZR s) by (apply IZR_le; lia).
  assert (Be : bpow radix2 e <= IZR s < bpow radix2 (e + 1)).
  { unfold e. destruct (mag radix2 (IZR s)) as (e' & He). simpl.
    pose proof (He ltac:(lra)) as He2. rewrite Rabs_pos_eq in He2 by lra. now replace (e' - 1 + 1)%Z with e' by lia. }
  assert (He0 : (0 <= e)%Z).
  { assert (bpow radix2 0 < bpow radix2 (e + 1)) by (simpl (bpow radix2 0); lra).
    apply lt_bpow in H. lia. }
  assert (He23 : (e <= 23)%Z).
  { assert (bpow radix2 e < bpow radix2 24).
    { apply Rle_lt_trans with (IZR s); [tauto|]. rewrite <- (IZR_Zpower radix2 24) by lia. apply IZR_lt. exact Hs24. }
    apply lt_bpow in H. lia. }
  assert (Hx : IZR s * IZR s <= x) by (unfold x; rewrite <- mult_IZR; apply IZR_le; lia).
  assert (Hx2 : x < bpow radix2 (2 * e + 2)).
  { assert (s + 1 <= 2 ^ (e + 1))%Z.
    { assert (s < 2 ^ (e + 1))%Z; [|lia]. apply lt_IZR. change 2%Z with (radix_val radix2) at 1.
      rewrite IZR_Zpower by lia. tauto. }
    replace (2 * e + 2)%Z with ((e + 1) + (e + 1))%Z by lia.
    rewrite <- IZR_Zpower by lia. apply IZR_lt. rewrite Zpower_plus by lia.
    change (Zpower radix2 (e + 1)) with (2 ^ (e + 1))%Z. nia. }
  assert (Ne : IZR s <> bpow radix2 e).
  { intros E. apply (Rlt_irrefl (rn x)). apply Rlt_le_trans with (1 := L).
    apply round_ge_generic; try typeclasses eauto; auto. rewrite E, <- bpow_plus. apply format_bpow. lia. }
  assert (Hse : bpow radix2 e + 1 <= IZR s).
  { assert (2 ^ e < s)%Z.
    { apply lt_IZR. change 2%Z with (radix_val radix2). rewrite IZR_Zpower by lia. lra. }
    rewrite <- IZR_Zpower by lia. rewrite <- plus_IZR. apply IZR_le. change (Zpower radix2 e) with (2 ^ e)%Z. lia. }
  assert (Ep : pred radix2 fx (IZR s) = IZR s - bpow radix2 (e - 23)).
  { rewrite pred_eq_pos by lra. unfold pred_pos. rewrite Req_bool_false.
    - f_equal. rewrite ulp_neq_0 by lra. unfold cexp. f_equal. rewrite fx_eq. unfold e in *. lia.
    - fold e. auto. }
  rewrite Ep.
  assert (Er : x - rn x <= bpow radix2 (2 * e - 23)).
  { pose proof (error_le_half_ulp radix2 fx (fun t => negb (Z.even t)) x) as Hu.
    assert (0 < x) by nra.
    assert (U : ulp radix2 fx x <= bpow radix2 (2 * e - 22)).
    { rewrite ulp_neq_0 by lra. apply bpow_le. unfold cexp. rewrite fx_eq.
      assert (mag radix2 x <= 2 * e + 2)%Z.
      { apply mag_le_bpow; [lra|]. rewrite Rabs_pos_eq; lra. }
      lia. }
    assert (bpow radix2 (2 * e - 22) = 2 * bpow radix2 (2 * e - 23)).
    { replace (2 * e - 22)%Z with (1 + (2 * e - 23))%Z by lia. rewrite bpow_plus. reflexivity. }
    apply Rabs_def2b in Hu || idtac. unfold Rabs in Hu. destruct Rcase_abs; lra. }
  set (h := bpow radix2 (e - 24)).
  assert (E23 : bpow radix2 (e - 23) = 2 * h).
  { unfold h. replace (e - 23)%Z with (1 + (e - 24))%Z by lia. rewrite bpow_plus. reflexivity. }
  replace ((IZR s + (IZR s - bpow radix2 (e - 23))) / 2) with (IZR s - h) by (rewrite E23; field).
  assert (Hh : 0 < h) by apply bpow_gt_0.
  assert (Hh1 : h < 1) by (apply (bpow_lt radix2 (e - 24) 0); lia).
  rewrite <- (sqrt_square (IZR s - h)) by lra.
  apply sqrt_lt_1_alt. split; [nra|].
  assert (E2 : bpow radix2 (2 * e - 23) = bpow radix2 e * (2 * h)).
  { rewrite <- E23, <- bpow_plus. f_equal. lia. }
  rewrite E2 in Er. nra.
Qed.
