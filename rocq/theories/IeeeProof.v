(** * f32 and f64 meet the rounding model *)
From Verif Require Import ConstProof.
From Verif Require Export IeeeSpec.
From Flocq Require Import Core Relative Plus_error.
From Coq Require Import Reals Lra Lia ZArith Ratan Psatz.
Local Open Scope R_scope.

(** ** any binary format *)
Section Format.
  Variables (prec emax : Z).
  Context (Hp : Prec_gt_0 prec) (He : Prec_lt_emax prec emax).
  Let emin := (3 - emax - prec)%Z.
  Notation bf := (binary_float prec emax).
  Notation rnd := (round radix2 (SpecFloat.fexp prec emax) ZnearestE).
  Let u := bpow radix2 (- prec).
  Let lo := bpow radix2 (2 - emax).
  Let hi := bpow radix2 (emax - 1).
  Let fexp_valid : Valid_exp (SpecFloat.fexp prec emax) := fexp_correct prec emax Hp.

  Lemma rnd_hi x : Rabs x <= hi -> Rlt_bool (Rabs (rnd x)) (bpow radix2 emax) = true.
  Proof.
    intros H. apply Rlt_bool_true. apply (Rle_lt_trans _ hi); [|apply bpow_lt; lia].
    apply abs_round_le_generic; auto with typeclass_instances.
    apply generic_format_bpow. unfold SpecFloat.fexp, SpecFloat.emin. unfold Prec_gt_0, Prec_lt_emax in *. lia.
  Qed.
  Lemma rnd_err x : Rabs (rnd x - x) <= u * Rmax (Rabs x) lo.
  Proof.
    destruct (error_N_FLT radix2 emin prec Hp (fun x => negb (Z.even x)) x) as (eps & eta & A & B & C & E).
    change (FLT_exp emin prec) with (SpecFloat.fexp prec emax) in E. rewrite E.
    replace (x * (1 + eps) + eta - x) with (x * eps + eta) by ring.
    assert (U : u = / 2 * bpow radix2 (- prec + 1)).
    { unfold u. rewrite bpow_plus. simpl (bpow radix2 1). lra. }
    pose proof (Rmax_l (Rabs x) lo). pose proof (Rmax_r (Rabs x) lo). assert (0 <= u) by apply bpow_ge_0.
    apply Rmult_integral in C. destruct C as [-> | ->].
    - rewrite Rmult_0_r, Rplus_0_l. apply (Rle_trans _ (u * lo)); [|apply Rmult_le_compat_l; auto].
      apply (Rle_trans _ _ _ B). right. unfold u, lo. rewrite <- bpow_plus.
      replace (- prec + (2 - emax))%Z with (emin + -1)%Z by (unfold emin; lia). rewrite bpow_plus. simpl (bpow radix2 (-1)). lra.
    - rewrite Rplus_0_r, Rabs_mult, Rmult_comm.
      apply Rmult_le_compat; auto using Rabs_pos. rewrite U. exact A.
  Qed.
  Lemma rnd_plus (a b : bf) : Rabs (rnd (B2R a + B2R b) - (B2R a + B2R b)) <= u * Rabs (B2R a + B2R b).
  Proof.
    destruct (FLT_plus_error_N_ex radix2 emin prec (fun x => negb (Z.even x)) (B2R a) (B2R b)) as (eps & A & E); [apply generic_format_B2R..|].
    change (FLT_exp emin prec) with (SpecFloat.fexp prec emax) in E. rewrite E.
    replace ((B2R a + B2R b) * (1 + eps) - (B2R a + B2R b)) with (eps * (B2R a + B2R b)) by ring. rewrite Rabs_mult.
    apply Rmult_le_compat_r; [apply Rabs_pos|]. apply (Rle_trans _ _ _ A). apply (Rle_trans _ _ _ (u_rod1pu_ro_le_u_ro radix2 prec)).
    right. unfold u_ro, u. rewrite bpow_plus. simpl (bpow radix2 1). lra.
  Qed.
  Lemma plus_ok (a b : bf) : is_finite a = true -> is_finite b = true -> Rabs (B2R a + B2R b) <= hi ->
    is_finite (Bplus mode_NE a b) = true /\ Rabs (B2R (Bplus mode_NE a b) - (B2R a + B2R b)) <= u * Rabs (B2R a + B2R b).
  Proof.
    intros Fa Fb H. pose proof (Bplus_correct prec emax _ _ mode_NE a b Fa Fb) as C. simpl round_mode in C.
    rewrite rnd_hi in C by auto. destruct C as (-> & -> & _). split; auto. apply rnd_plus.
  Qed.
  Lemma minus_ok (a b : bf) : is_finite a = true -> is_finite b = true -> Rabs (B2R a - B2R b) <= hi ->
    is_finite (Bminus mode_NE a b) = true /\ Rabs (B2R (Bminus mode_NE a b) - (B2R a - B2R b)) <= u * Rabs (B2R a - B2R b).
  Proof.
    intros Fa Fb H. pose proof (Bminus_correct prec emax _ _ mode_NE a b Fa Fb) as C. simpl round_mode in C.
    rewrite rnd_hi in C by auto. destruct C as (-> & -> & _). split; auto.
    pose proof (rnd_plus a (Bopp b)) as R. rewrite B2R_Bopp in R. exact R.
  Qed.
  Lemma mult_ok (a b : bf) : is_finite a = true -> is_finite b = true -> Rabs (B2R a * B2R b) <= hi ->
    is_finite (Bmult mode_NE a b) = true /\ Rabs (B2R (Bmult mode_NE a b) - B2R a * B2R b) <= u * Rmax (Rabs (B2R a * B2R b)) lo.
  Proof.
    intros Fa Fb H. pose proof (Bmult_correct prec emax _ _ mode_NE a b) as C. simpl round_mode in C.
    rewrite rnd_hi in C by auto. destruct C as (-> & -> & _). rewrite Fa, Fb. split; auto. apply rnd_err.
  Qed.
  Lemma div_ok (a b : bf) : is_finite a = true -> B2R b <> 0 -> Rabs (B2R a / B2R b) <= hi ->
    is_finite (Bdiv mode_NE a b) = true /\ Rabs (B2R (Bdiv mode_NE a b) - B2R a / B2R b) <= u * Rmax (Rabs (B2R a / B2R b)) lo.
  Proof.
    intros Fa Nb H. pose proof (Bdiv_correct prec emax _ _ mode_NE a b Nb) as C. simpl round_mode in C.
    rewrite rnd_hi in C by auto. destruct C as (-> & -> & _). rewrite Fa. split; auto. apply rnd_err.
  Qed.
  Lemma norm_ok m e s : Rabs (F2R (Float radix2 m e)) <= hi ->
    let z := binary_normalize prec emax Hp He mode_NE m e s in
    is_finite z = true /\ Rabs (B2R z - F2R (Float radix2 m e)) <= u * Rmax (Rabs (F2R (Float radix2 m e))) lo.
  Proof.
    intros H z. pose proof (binary_normalize_correct prec emax Hp He mode_NE m e s) as C. cbv zeta in C. simpl round_mode in C.
    rewrite rnd_hi in C by auto. fold z in C. destruct C as (-> & -> & _). split; auto. apply rnd_err.
  Qed.
End Format.

(** ** the angle *)
Lemma pi_bound : Rabs (PI - 884279719003555 / 281474976710656) <= / 2251799813685248.
Proof.
  destruct (PI_2_3_7_ineq 8) as [A B].
  unfold tg_alt, PI_2_3_7_tg, Ratan_seq in A, B. cbn [Nat.mul Nat.add sum_f_R0] in A, B.
  cbn [pow Nat.add Nat.mul] in A, B.
  rewrite !INR_IZR_INZ in A. rewrite !INR_IZR_INZ in B. cbn [Z.of_nat Pos.of_succ_nat Pos.succ] in A, B.
  apply Rabs_le. split; lra.
Qed.
Lemma cos_lip a b : Rabs (cos a - cos b) <= Rabs (a - b).
Proof.
  rewrite form2, !Rabs_mult. replace (Rabs (-2)) with 2 by (rewrite Rabs_left; lra).
  assert (S : forall x, Rabs (sin x) <= Rabs x).
  { assert (P : forall x, 0 < x -> Rabs (sin x) <= x).
    { intros x Hx. apply Rabs_le. pose proof (sin_lt_x x Hx). pose proof (SIN_bound x). split; [|lra].
      destruct (Rle_lt_dec 1 x); [lra|]. assert (0 < sin x) by (apply sin_gt_0; pose proof PI2_1; lra). lra. }
    intros x. destruct (Rtotal_order x 0) as [L|[->|L]].
    - rewrite <- (Rabs_Ropp (sin x)), <- sin_neg, <- (Rabs_Ropp x), (Rabs_pos_eq (- x)) by lra. apply P. lra.
    - rewrite sin_0, Rabs_R0. lra.
    - rewrite (Rabs_pos_eq x) by lra. now apply P. }
  pose proof (S ((a - b) / 2)) as S1.
  assert (Rabs (a - b) = 2 * Rabs ((a - b) / 2)).
  { rewrite <- (Rabs_pos_eq 2) at 1 by lra. rewrite <- Rabs_mult. f_equal. field. }
  assert (Rabs (sin ((a + b) / 2)) <= 1) by (apply Rabs_le, SIN_bound).
  pose proof (Rabs_pos (sin ((a - b) / 2))). pose proof (Rabs_pos (sin ((a + b) / 2))). nra.
Qed.
Lemma sin_lip a b : Rabs (sin a - sin b) <= Rabs (a - b).
Proof.
  rewrite <- !cos_shift. eapply Rle_trans; [apply cos_lip|]. right. rewrite <- Rabs_Ropp. f_equal. ring.
Qed.

Definition rel (e x y : R) := Rabs (x - y) <= e * Rabs y.
Lemma rel_mul e1 e2 x y x' y' : 0 <= e1 -> 0 <= e2 -> rel e1 x y -> rel e2 x' y' -> rel (e1 + e2 + e1 * e2) (x * x') (y * y').
Proof.
  unfold rel. intros P1 P2 A B. replace (x * x' - y * y') with ((x - y) * (x' - y') + (x - y) * y' + y * (x' - y')) by ring.
  eapply Rle_trans; [apply Rabs_triang|]. eapply Rle_trans; [apply Rplus_le_compat_r, Rabs_triang|]. rewrite !Rabs_mult.
  pose proof (Rabs_pos (x - y)). pose proof (Rabs_pos (x' - y')). pose proof (Rabs_pos y). pose proof (Rabs_pos y').
  assert (Rabs (x - y) * Rabs (x' - y') <= e1 * Rabs y * (e2 * Rabs y')) by (apply Rmult_le_compat; auto).
  assert (Rabs (x - y) * Rabs y' <= e1 * Rabs y * Rabs y') by (apply Rmult_le_compat_r; auto).
  assert (Rabs y * Rabs (x' - y') <= Rabs y * (e2 * Rabs y')) by (apply Rmult_le_compat_l; auto).
  lra.
Qed.
Lemma rel_trans e1 e2 x y z : 0 <= e1 -> rel e1 x y -> rel e2 y z -> rel (e1 + e2 + e1 * e2) x z.
Proof.
  unfold rel. intros P A B. replace (x - z) with ((x - y) + (y - z)) by ring. eapply Rle_trans; [apply Rabs_triang|].
  assert (Rabs y <= (1 + e2) * Rabs z).
  { replace y with (z + (y - z)) at 1 by ring. eapply Rle_trans; [apply Rabs_triang|]. lra. }
  assert (e1 * Rabs y <= e1 * ((1 + e2) * Rabs z)) by (apply Rmult_le_compat_l; auto). lra.
Qed.
Lemma rel_inv e x y : 0 <= e <= / 2 -> y <> 0 -> rel e x y -> rel (2 * e) (/ x) (/ y).
Proof.
  unfold rel. intros P Ny A. assert (Py : 0 < Rabs y) by now apply Rabs_pos_lt.
  assert (Lx : / 2 * Rabs y <= Rabs x).
  { pose proof (Rabs_triang (y - x) x) as T. replace (y - x + x) with y in T by ring. rewrite (Rabs_minus_sym y x) in T. nra. }
  assert (Nx : x <> 0) by (intros ->; rewrite Rabs_R0 in Lx; lra).
  replace (/ x - / y) with (- ((x - y) * / x * / y)) by (field; auto). rewrite Rabs_Ropp, !Rabs_mult, !Rabs_inv.
  apply Rmult_le_compat_r; [left; now apply Rinv_0_lt_compat|].
  apply (Rmult_le_reg_r (Rabs x)); [lra|]. rewrite Rmult_assoc, Rinv_l by lra. nra.
Qed.
Lemma rel_mono e e' x y : e <= e' -> rel e x y -> rel e' x y.
Proof. unfold rel. intros L A. pose proof (Rabs_pos y). nra. Qed.

Notation U := (bpow radix2 (-53)) (only parsing).
Lemma U_val : U = / 9007199254740992.
Proof. reflexivity. Qed.
Lemma lo_64 : bpow radix2 (-1022) <= bpow radix2 (-100).
Proof. apply bpow_le. lia. Qed.
Lemma hi_64 : bpow radix2 100 <= bpow radix2 1023.
Proof. apply bpow_le. lia. Qed.
Lemma b100 : bpow radix2 100 = 1267650600228229401496703205376.
Proof. reflexivity. Qed.
Lemma bm100 : bpow radix2 (-100) = / 1267650600228229401496703205376.
Proof. reflexivity. Qed.
Lemma usz_R n : (N.of_nat n < 2 ^ 65)%N -> INR n <= 36893488147419103232.
Proof. intros H. rewrite INR_IZR_INZ. apply IZR_le. lia. Qed.
Lemma pos_R n : (0 < n)%nat -> 1 <= INR n.
Proof. intros H. apply (le_INR 1). lia. Qed.
(** a finite value with a relative error *)
Lemma err_rel (x y : R) : bpow radix2 (-100) <= Rabs y -> Rabs (x - y) <= U * Rmax (Rabs y) (bpow radix2 (-1022)) -> rel U x y.
Proof. intros A B. unfold rel. pose proof lo_64. rewrite Rmax_left in B by lra. exact B. Qed.

Lemma usize_rel n : (0 < n)%nat -> (N.of_nat n < 2 ^ 65)%N -> is_finite (f64_of_usize n) = true /\ rel U (B2R (f64_of_usize n)) (INR n).
Proof.
  intros Hn Us. pose proof (usz_R _ Us) as H1. pose proof (pos_R _ Hn) as H2. pose proof hi_64. rewrite b100 in *.
  assert (E : F2R (Float radix2 (Z.of_nat n) 0) = INR n).
  { unfold F2R. simpl. rewrite Rmult_1_r. symmetry. apply INR_IZR_INZ. }
  assert (A : Rabs (INR n) = INR n) by (apply Rabs_pos_eq; lra).
  destruct (norm_ok 53 1024 eq_refl eq_refl (Z.of_nat n) 0 false) as [F Er].
  { rewrite E, A. change (1024 - 1)%Z with 1023%Z. lra. }
  rewrite E in Er. split; auto. apply err_rel; auto. rewrite A, bm100. lra.
Qed.
Lemma usize_zero : is_finite (f64_of_usize 0) = true /\ B2R (f64_of_usize 0) = 0.
Proof. split; vm_compute; reflexivity. Qed.

Definition sgn (s : bool) : R := if s then -1 else 1.
Lemma sgn_abs s : Rabs (sgn s) = 1.
Proof. destruct s; unfold sgn; [rewrite Rabs_left; lra|apply Rabs_R1]. Qed.
Lemma twopi_val (s : bool) : let v := f64_mul (if s then Bopp f64_two else f64_two) f64_pi in
  is_finite v = true /\ B2R v = sgn s * 2 * (884279719003555 / 281474976710656).
Proof.
  intros v.
  assert (E : B2SF v = SpecFloat.S754_finite s 7074237752028440 (-50)) by (unfold v; destruct s; vm_compute; reflexivity).
  destruct v as [| | |s' m e H]; try discriminate. simpl in E. injection E as -> -> ->. split; [reflexivity|].
  unfold B2R, F2R, sgn. destruct s; simpl; lra.
Qed.

Lemma PI_34 : 3 < PI < 315 / 100.
Proof. pose proof pi_bound as H. apply Rabs_le_inv in H. lra. Qed.
Lemma rel_abs e x y : rel e x y -> Rabs x <= (1 + e) * Rabs y /\ (1 - e) * Rabs y <= Rabs x.
Proof.
  unfold rel. intros A. pose proof (Rabs_triang y (x - y)) as T1. replace (y + (x - y)) with x in T1 by ring.
  pose proof (Rabs_triang (y - x) x) as T2. replace (y - x + x) with y in T2 by ring. rewrite (Rabs_minus_sym y x) in T2. lra.
Qed.

Lemma constant_ok (s : bool) n : (0 < n)%nat -> usz n ->
  let c := f64_div (f64_mul (if s then Bopp f64_two else f64_two) f64_pi) (f64_of_usize n) in
  is_finite c = true /\ rel (11 / 2 * U) (B2R c) (sgn s * 2 * PI / INR n).
Proof.
  intros Hn Us c. assert (Us' : (N.of_nat n < 2 ^ 65)%N) by (unfold usz in Us; lia).
  destruct (usize_rel n Hn Us') as [Fn Rn]. destruct (twopi_val s) as [Fv Ev]. cbv zeta in Fv, Ev.
  pose proof (usz_R _ Us') as H1. pose proof (pos_R _ Hn) as H2. pose proof PI_34 as HP. pose proof hi_64 as HH. rewrite b100 in HH.
  pose proof U_val as UV.
  set (v := f64_mul (if s then Bopp f64_two else f64_two) f64_pi) in *. set (nh := f64_of_usize n) in *.
  assert (A2 : Rabs (sgn s * 2 * PI) = 2 * PI) by (rewrite !Rabs_mult, sgn_abs, (Rabs_pos_eq 2), (Rabs_pos_eq PI) by lra; ring).
  assert (R0 : rel (2 * U) (B2R v) (sgn s * 2 * PI)).
  { unfold rel. rewrite Ev, A2. replace (sgn s * 2 * (884279719003555 / 281474976710656) - sgn s * 2 * PI)
      with (sgn s * - (2 * (PI - 884279719003555 / 281474976710656))) by ring.
    rewrite Rabs_mult, sgn_abs, Rabs_Ropp, Rabs_mult, (Rabs_pos_eq 2) by lra. pose proof pi_bound. rewrite UV. lra. }
  assert (Nn : INR n <> 0) by lra.
  assert (Ri : rel (2 * U) (/ B2R nh) (/ INR n)) by (apply rel_inv; auto; rewrite UV; lra).
  assert (Nh : B2R nh <> 0).
  { intros Z. apply rel_abs in Rn. rewrite Z, Rabs_R0, (Rabs_pos_eq (INR n)) in Rn by lra. rewrite UV in Rn. lra. }
  assert (Rq : rel (2 * U + 2 * U + 2 * U * (2 * U)) (B2R v / B2R nh) (sgn s * 2 * PI / INR n)).
  { apply rel_mul; auto; rewrite UV; lra. }
  assert (At : Rabs (sgn s * 2 * PI / INR n) = 2 * PI / INR n).
  { unfold Rdiv. rewrite Rabs_mult, A2, Rabs_inv, (Rabs_pos_eq (INR n)) by lra. reflexivity. }
  assert (Q1 : 2 * PI / INR n <= 7).
  { apply (Rmult_le_reg_r (INR n)); [lra|]. unfold Rdiv. rewrite Rmult_assoc, Rinv_l by lra. lra. }
  assert (Q2 : / 36893488147419103232 <= 2 * PI / INR n).
  { apply (Rmult_le_reg_r (INR n)); [lra|]. unfold Rdiv. rewrite (Rmult_assoc (2 * PI)), Rinv_l by lra. lra. }
  destruct (rel_abs _ _ _ Rq) as [B1 B2]. rewrite At in B1, B2.
  destruct (div_ok 53 1024 eq_refl eq_refl v nh Fv Nh) as [Fc Ec].
  { change (1024 - 1)%Z with 1023%Z. rewrite UV in B1. lra. }
  split; [exact Fc|].
  assert (Rc : rel U (B2R c) (B2R v / B2R nh)).
  { apply err_rel; [|exact Ec]. rewrite bm100. rewrite UV in B2. lra. }
  eapply rel_mono; [|eapply rel_trans; [|exact Rc|exact Rq]]; rewrite UV; lra.
Qed.
Lemma angle_ok s i n : (0 < n)%nat -> (i <= 2 * n)%nat -> usz n ->
  is_finite (f64_angle s i n) = true /\ Rabs (B2R (f64_angle s i n)) <= 16 /\
  Rabs (B2R (f64_angle s i n) - sgn s * 2 * PI / INR n * INR i) <= 101 * U.
Proof.
  intros Hn Hi Us. destruct (constant_ok s n Hn Us) as [Fc Rc]. cbv zeta in Fc, Rc. unfold f64_angle.
  set (c := f64_div _ _) in *. pose proof U_val as UV. pose proof PI_34 as HP. pose proof hi_64 as HH. rewrite b100 in HH.
  assert (Us' : (N.of_nat n < 2 ^ 65)%N) by (unfold usz in Us; lia).
  pose proof (usz_R _ Us') as H1. pose proof (pos_R _ Hn) as H2.
  destruct (Nat.eq_dec i 0) as [->|Ni].
  - destruct usize_zero as [F0 E0]. destruct (mult_ok 53 1024 eq_refl eq_refl c (f64_of_usize 0) Fc F0) as [Fm Em].
    { rewrite E0, Rmult_0_r, Rabs_R0. apply bpow_ge_0. }
    split; [exact Fm|]. rewrite E0, !Rmult_0_r, !Rminus_0_r, Rabs_R0, Rmax_right in Em by apply bpow_ge_0.
    assert (Z : Rabs (B2R (f64_mul c (f64_of_usize 0))) <= U * / 2).
    { apply (Rle_trans _ _ _ Em). rewrite UV. pose proof lo_64 as L. rewrite bm100 in L. change (2 - 1024)%Z with (-1022)%Z. change (- (53))%Z with (-53)%Z. rewrite UV. lra. }
    split; [rewrite UV in Z; lra|]. change (INR 0) with 0. rewrite Rmult_0_r, Rminus_0_r, UV. rewrite UV in Z. lra.
  - assert (Hi0 : (0 < i)%nat) by lia.
    destruct (usize_rel i Hi0) as [Fi Ri]; [unfold usz in Us; lia|].
    pose proof (pos_R _ Hi0) as H3. assert (H4 : INR i <= 2 * INR n) by (change 2 with (INR 2); rewrite <- mult_INR; now apply le_INR).
    set (t := sgn s * 2 * PI / INR n * INR i).
    assert (Rp : rel (11 / 2 * U + U + 11 / 2 * U * U) (B2R c * B2R (f64_of_usize i)) t) by (apply rel_mul; auto; rewrite UV; lra).
    assert (At : Rabs t = 2 * PI / INR n * INR i).
    { unfold t, Rdiv. rewrite !Rabs_mult, sgn_abs, Rabs_inv, (Rabs_pos_eq 2), (Rabs_pos_eq PI), (Rabs_pos_eq (INR n)), (Rabs_pos_eq (INR i)) by lra. ring. }
    assert (Q1 : 2 * PI / INR n * INR i <= 126 / 10).
    { apply (Rmult_le_reg_r (INR n)); [lra|]. replace (2 * PI / INR n * INR i * INR n) with (2 * PI * INR i) by (field; lra). nra. }
    assert (Q2 : / 36893488147419103232 <= 2 * PI / INR n * INR i).
    { apply (Rmult_le_reg_r (INR n)); [lra|]. replace (2 * PI / INR n * INR i * INR n) with (2 * PI * INR i) by (field; lra). nra. }
    destruct (rel_abs _ _ _ Rp) as [B1 B2]. rewrite At in B1, B2.
    destruct (mult_ok 53 1024 eq_refl eq_refl c (f64_of_usize i) Fc Fi) as [Fm Em].
    { change (1024 - 1)%Z with 1023%Z. rewrite UV in B1. lra. }
    split; [exact Fm|].
    assert (Ra : rel U (B2R (f64_mul c (f64_of_usize i))) (B2R c * B2R (f64_of_usize i))).
    { apply err_rel; [|exact Em]. rewrite bm100. rewrite UV in B2. lra. }
    assert (RA : rel (8 * U) (B2R (f64_mul c (f64_of_usize i))) t).
    { eapply rel_mono; [|eapply rel_trans; [|exact Ra|exact Rp]]; rewrite UV; lra. }
    destruct (rel_abs _ _ _ RA) as [B3 _]. rewrite At in B3. split; [rewrite UV in B3; lra|].
    unfold rel in RA. rewrite At in RA. apply (Rle_trans _ _ _ RA). rewrite UV. lra.
Qed.

(** ** conversions and constants *)
Lemma to_f32_ok (v : f64) : is_finite v = true -> Rabs (B2R v) <= bpow radix2 127 ->
  is_finite (f32_of_f64 v) = true /\
  Rabs (B2R (f32_of_f64 v) - B2R v) <= bpow radix2 (-24) * Rmax (Rabs (B2R v)) (bpow radix2 (-126)).
Proof.
  intros F B. destruct v as [s| | |s m e H]; try discriminate.
  - split; [reflexivity|]. simpl (B2R _). rewrite Rminus_0_r, Rabs_R0. apply Rmult_le_pos; [apply bpow_ge_0|]. apply Rmax_l.
  - exact (norm_ok 24 128 eq_refl eq_refl (cond_Zopp s (Zpos m)) e s B).
Qed.
Lemma root_half_val : is_finite (f32_sqrt f32_one_half) = true /\ B2R (f32_sqrt f32_one_half) = IZR 11863283 * / 16777216.
Proof. split; [vm_compute; reflexivity|]. exact lib_root_half_val. Qed.
Lemma root_half64_val : is_finite (f64_of_f32 (f32_sqrt f32_one_half)) = true /\ B2R (f64_of_f32 (f32_sqrt f32_one_half)) = IZR 11863283 * / 16777216.
Proof.
  set (v := f64_of_f32 (f32_sqrt f32_one_half)).
  assert (E : B2SF v = B2SF v) by reflexivity.
  let t := eval vm_compute in (B2SF v) in change (B2SF v = t) in E.
  destruct v as [| | |s' m e H]; try discriminate. simpl in E. injection E as -> -> ->. split; [reflexivity|].
  unfold B2R, F2R. simpl. lra.
Qed.
Lemma half_val : is_finite f32_one_half = true /\ B2R f32_one_half = / 2.
Proof.
  set (v := f32_one_half). assert (E : B2SF v = B2SF v) by reflexivity.
  let t := eval vm_compute in (B2SF v) in change (B2SF v = t) in E.
  destruct v as [| | |s' m e H]; try discriminate. simpl in E. injection E as -> -> ->. split; [reflexivity|].
  unfold B2R, F2R. simpl. lra.
Qed.
Lemma half64_val : is_finite (f64_of_f32 f32_one_half) = true /\ B2R (f64_of_f32 f32_one_half) = / 2.
Proof.
  set (v := f64_of_f32 f32_one_half). assert (E : B2SF v = B2SF v) by reflexivity.
  let t := eval vm_compute in (B2SF v) in change (B2SF v = t) in E.
  destruct v as [| | |s' m e H]; try discriminate. simpl in E. injection E as -> -> ->. split; [reflexivity|].
  unfold B2R, F2R. simpl. lra.
Qed.
Lemma one_val : is_finite f64_one = true /\ B2R f64_one = 1.
Proof.
  set (v := f64_one). assert (E : B2SF v = B2SF v) by reflexivity.
  let t := eval vm_compute in (B2SF v) in change (B2SF v = t) in E.
  destruct v as [| | |s' m e H]; try discriminate. simpl in E. injection E as -> -> ->. split; [reflexivity|].
  unfold B2R, F2R. simpl. lra.
Qed.
Lemma root_rel : Rabs (IZR 11863283 * / 16777216 - rh) <= bpow radix2 (-24) * rh.
Proof.
  pose proof lib_rho_gap as G. rewrite lib_root_half_val in G.
  assert (S : rh * sqrt 2 = 1).
  { unfold rh. rewrite <- sqrt_mult by lra. rewrite Rinv_l by lra. apply sqrt_1. }
  assert (P : 0 <= rh) by (unfold rh; apply sqrt_pos).
  replace (IZR 11863283 * / 16777216 - rh) with (- (rh * (1 - IZR 11863283 * / 16777216 * sqrt 2))).
  2: { transitivity (IZR 11863283 * / 16777216 * (rh * sqrt 2) - rh); [ring|rewrite S; ring]. }
  rewrite Rabs_Ropp, Rabs_mult, (Rabs_pos_eq rh) by auto. rewrite Rmult_comm. apply Rmult_le_compat_r; auto.
  replace (bpow radix2 (-24)) with (/ 16777216) by reflexivity. rewrite Rabs_pos_eq; lra.
Qed.
Lemma recip_ok n : (0 < n)%nat -> usz n ->
  is_finite (f64_div f64_one (f64_of_usize n)) = true /\ rel (4 * U) (B2R (f64_div f64_one (f64_of_usize n))) (/ INR n).
Proof.
  intros Hn Us. assert (Us' : (N.of_nat n < 2 ^ 65)%N) by (unfold usz in Us; lia).
  destruct (usize_rel n Hn Us') as [Fn Rn]. destruct one_val as [F1 E1].
  pose proof (usz_R _ Us') as H1. pose proof (pos_R _ Hn) as H2. pose proof hi_64 as HH. rewrite b100 in HH. pose proof U_val as UV.
  set (nh := f64_of_usize n) in *. assert (Nn : INR n <> 0) by lra.
  assert (Ri : rel (2 * U) (/ B2R nh) (/ INR n)) by (apply rel_inv; auto; rewrite UV; lra).
  assert (Nh : B2R nh <> 0).
  { intros Z. apply rel_abs in Rn. rewrite Z, Rabs_R0, (Rabs_pos_eq (INR n)) in Rn by lra. rewrite UV in Rn. lra. }
  assert (In : / 36893488147419103232 <= / INR n <= 1).
  { split; [apply Rinv_le_contravar; lra|]. rewrite <- Rinv_1. apply Rinv_le_contravar; lra. }
  destruct (rel_abs _ _ _ Ri) as [B1 B2]. rewrite (Rabs_pos_eq (/ INR n)) in B1, B2 by lra.
  assert (E : B2R f64_one / B2R nh = / B2R nh) by (rewrite E1; unfold Rdiv; ring).
  destruct (div_ok 53 1024 eq_refl eq_refl f64_one nh F1 Nh) as [Fc Ec].
  { change (1024 - 1)%Z with 1023%Z. rewrite E. rewrite UV in B1. lra. }
  split; [exact Fc|]. rewrite E in Ec.
  assert (Rc : rel U (B2R (f64_div f64_one nh)) (/ B2R nh)).
  { apply err_rel; [|exact Ec]. rewrite bm100. rewrite UV in B2. lra. }
  eapply rel_mono; [|eapply rel_trans; [|exact Rc|exact Ri]]; rewrite UV; lra.
Qed.

(** ** the two instances *)
Section Instances.
  Variable L : libm.
  Hypothesis HL : accurate L.
  Lemma b46 : bpow radix2 (-46) = 128 * U. Proof. simpl. lra. Qed.
  Lemma b52 : bpow radix2 (-52) = 2 * U. Proof. simpl. lra. Qed.
  Lemma cos64_ok s i n : (0 < n)%nat -> (i <= 2 * n)%nat -> usz n ->
    is_finite (lcos L (f64_angle s i n)) = true /\
    Rabs (B2R (lcos L (f64_angle s i n)) - cos (sgn s * 2 * PI / INR n * INR i)) <= bpow radix2 (-46).
  Proof.
    intros Hn Hi Us. destruct (angle_ok s i n Hn Hi Us) as (F & B & E). destruct (HL _ F B) as [[F1 E1] _]. split; auto.
    pose proof (cos_lip (B2R (f64_angle s i n)) (sgn s * 2 * PI / INR n * INR i)) as C.
    eapply Rle_trans; [eapply Rle_trans; [|apply Rplus_le_compat; [exact E1|eapply Rle_trans; [exact C|exact E]]]|].
    - eapply Rle_trans; [|apply Rabs_triang]. right. f_equal. ring.
    - rewrite b46, b52, U_val. lra.
  Qed.
  Lemma sin64_ok s i n : (0 < n)%nat -> (i <= 2 * n)%nat -> usz n ->
    is_finite (lsin L (f64_angle s i n)) = true /\
    Rabs (B2R (lsin L (f64_angle s i n)) - sin (sgn s * 2 * PI / INR n * INR i)) <= bpow radix2 (-46).
  Proof.
    intros Hn Hi Us. destruct (angle_ok s i n Hn Hi Us) as (F & B & E). destruct (HL _ F B) as [_ [F1 E1]]. split; auto.
    pose proof (sin_lip (B2R (f64_angle s i n)) (sgn s * 2 * PI / INR n * INR i)) as C.
    eapply Rle_trans; [eapply Rle_trans; [|apply Rplus_le_compat; [exact E1|eapply Rle_trans; [exact C|exact E]]]|].
    - eapply Rle_trans; [|apply Rabs_triang]. right. f_equal. ring.
    - rewrite b46, b52, U_val. lra.
  Qed.
  (** narrowing to f32 *)
  Lemma narrow_ok (v : f64) t : is_finite v = true -> Rabs t <= 1 -> Rabs (B2R v - t) <= bpow radix2 (-46) ->
    is_finite (f32_of_f64 v) = true /\ Rabs (B2R (f32_of_f64 v) - t) <= bpow radix2 (-24) + bpow radix2 (-45).
  Proof.
    intros F T E. assert (B46 : bpow radix2 (-46) = / 70368744177664) by reflexivity.
    assert (H127 : 2 <= bpow radix2 127) by (change 2 with (bpow radix2 1); apply bpow_le; lia).
    assert (L126 : bpow radix2 (-126) <= 1) by (change 1 with (bpow radix2 0); apply bpow_le; lia).
    assert (B : Rabs (B2R v) <= 1 + bpow radix2 (-46)).
    { replace (B2R v) with (t + (B2R v - t)) by ring. eapply Rle_trans; [apply Rabs_triang|]. lra. }
    destruct (to_f32_ok v F) as [F' E']; [rewrite B46 in B; lra|]. split; auto.
    replace (B2R (f32_of_f64 v) - t) with ((B2R (f32_of_f64 v) - B2R v) + (B2R v - t)) by ring.
    eapply Rle_trans; [apply Rabs_triang|].
    assert (M : Rmax (Rabs (B2R v)) (bpow radix2 (-126)) <= 1 + bpow radix2 (-46)) by (apply Rmax_lub; rewrite B46 in *; lra).
    assert (P24 : bpow radix2 (-24) = / 16777216) by reflexivity. assert (P45 : bpow radix2 (-45) = / 35184372088832) by reflexivity.
    rewrite P24, P45. rewrite P24 in E'. rewrite B46 in *. nra.
  Qed.

  Lemma ok64 : rounded F64 (Num_f64 L).
  Proof.
    split; cbn [F64 Num_f64 fval ffin flo fhi fu ftau frho nzero nadd nsub nmul nopp ncos nsin nhalf nroot_half nrecip].
    - apply bpow_ge_0.
    - apply bpow_ge_0.
    - apply bpow_ge_0.
    - apply bpow_ge_0.
    - replace (2 ^ 64) with (bpow radix2 64) by (rewrite pow_IZR; reflexivity). rewrite <- bpow_plus. change 1 with (bpow radix2 0). apply bpow_le. lia.
    - pose proof hi_64 as H. rewrite b100 in H. apply (Rle_trans _ 8); [|lra].
      replace (bpow radix2 (-46)) with (/ 70368744177664) by reflexivity. replace (bpow radix2 (-24)) with (/ 16777216) by reflexivity. lra.
    - split; reflexivity.
    - intros a b Fa Fb H. exact (plus_ok 53 1024 eq_refl eq_refl a b Fa Fb H).
    - intros a b Fa Fb H. exact (minus_ok 53 1024 eq_refl eq_refl a b Fa Fb H).
    - intros a b Fa Fb H. exact (mult_ok 53 1024 eq_refl eq_refl a b Fa Fb H).
    - intros a Fa. rewrite is_finite_Bopp, B2R_Bopp. auto.
    - exact cos64_ok.
    - exact sin64_ok.
    - exact half64_val.
    - destruct root_half64_val as [F E]. split; [exact F|]. rewrite E. exact root_rel.
    - intros n Hn Us. destruct (recip_ok n Hn Us) as [F E]. split; [exact F|]. unfold rel in E.
      assert (0 < / INR n) by (apply Rinv_0_lt_compat; pose proof (pos_R _ Hn); lra).
      rewrite (Rabs_pos_eq (/ INR n)) in E by lra. apply (Rle_trans _ _ _ E). apply Rmult_le_compat_r; [lra|]. rewrite b46, U_val. lra.
  Qed.
  Lemma ok32 : rounded F32 (Num_f32 L).
  Proof.
    assert (P24 : bpow radix2 (-24) = / 16777216) by reflexivity. assert (P45 : bpow radix2 (-45) = / 35184372088832) by reflexivity.
    assert (H127 : 8 <= bpow radix2 127) by (change 8 with (bpow radix2 3); apply bpow_le; lia).
    split; cbn [F32 Num_f32 fval ffin flo fhi fu ftau frho nzero nadd nsub nmul nopp ncos nsin nhalf nroot_half nrecip].
    - apply bpow_ge_0.
    - apply Rplus_le_le_0_compat; apply bpow_ge_0.
    - apply bpow_ge_0.
    - apply bpow_ge_0.
    - replace (2 ^ 64) with (bpow radix2 64) by (rewrite pow_IZR; reflexivity). rewrite <- bpow_plus. change 1 with (bpow radix2 0). apply bpow_le. lia.
    - rewrite P24, P45. lra.
    - split; reflexivity.
    - intros a b Fa Fb H. exact (plus_ok 24 128 eq_refl eq_refl a b Fa Fb H).
    - intros a b Fa Fb H. exact (minus_ok 24 128 eq_refl eq_refl a b Fa Fb H).
    - intros a b Fa Fb H. exact (mult_ok 24 128 eq_refl eq_refl a b Fa Fb H).
    - intros a Fa. rewrite is_finite_Bopp, B2R_Bopp. auto.
    - intros s i n Hn Hi Us. destruct (cos64_ok s i n Hn Hi Us) as [F E]. apply narrow_ok; auto. apply Rabs_le, COS_bound.
    - intros s i n Hn Hi Us. destruct (sin64_ok s i n Hn Hi Us) as [F E]. apply narrow_ok; auto. apply Rabs_le, SIN_bound.
    - exact half_val.
    - destruct root_half_val as [F E]. split; [exact F|]. rewrite E. exact root_rel.
    - intros n Hn Us. destruct (recip_ok n Hn Us) as [F E]. destruct (rel_abs _ _ _ E) as [B1 B2].
      pose proof (usz_R n ltac:(unfold usz in Us; lia)) as H1. pose proof (pos_R _ Hn) as H2. pose proof U_val as UV.
      assert (In : / 36893488147419103232 <= / INR n <= 1).
      { split; [apply Rinv_le_contravar; lra|]. rewrite <- Rinv_1. apply Rinv_le_contravar; lra. }
      rewrite (Rabs_pos_eq (/ INR n)) in B1, B2 by lra.
      destruct (to_f32_ok _ F) as [F' E']; [rewrite UV in B1; lra|]. split; [exact F'|].
      set (v := f64_div f64_one (f64_of_usize n)) in *.
      assert (L126 : bpow radix2 (-126) <= bpow radix2 (-100)) by (apply bpow_le; lia). rewrite bm100 in L126.
      rewrite Rmax_left in E' by (rewrite UV in B2; lra).
      assert (RT := rel_trans (bpow radix2 (-24)) (4 * U) _ _ _ (bpow_ge_0 _ _) E' E). unfold rel in RT. rewrite (Rabs_pos_eq (/ INR n)) in RT by lra.
      apply (Rle_trans _ _ _ RT). apply Rmult_le_compat_r; [lra|]. rewrite P24, P45, UV. lra.
  Qed.
End Instances.

(** ** an accurate library exists: cos and sin rounded to 60 bits, then to f64 *)
Definition ideal (f : R -> R) (a : f64) : f64 :=
  binary_normalize 53 1024 eq_refl eq_refl mode_NE (ZnearestE (f (B2R a) * bpow radix2 60)) (-60) false.
Lemma ideal_ok f a : Rabs (f (B2R a)) <= 1 ->
  is_finite (ideal f a) = true /\ Rabs (B2R (ideal f a) - f (B2R a)) <= bpow radix2 (-52).
Proof.
  intros B. set (t := f (B2R a)) in *. set (z := ZnearestE (t * bpow radix2 60)).
  pose proof (Znearest_half (fun x => negb (Z.even x)) (t * bpow radix2 60)) as H. fold z in H.
  assert (E : F2R (Float radix2 z (-60)) = IZR z * bpow radix2 (-60)) by reflexivity.
  assert (K : bpow radix2 60 = 1152921504606846976) by reflexivity. assert (K' : bpow radix2 (-60) = / 1152921504606846976) by reflexivity.
  assert (D : Rabs (IZR z * bpow radix2 (-60) - t) <= / 2 * bpow radix2 (-60)).
  { replace (IZR z * bpow radix2 (-60) - t) with (- (t * bpow radix2 60 - IZR z) * bpow radix2 (-60)).
    - rewrite Rabs_mult, Rabs_Ropp, (Rabs_pos_eq (bpow radix2 (-60))) by apply bpow_ge_0. apply Rmult_le_compat_r; [apply bpow_ge_0|exact H].
    - rewrite K, K'. field. }
  assert (B1 : Rabs (F2R (Float radix2 z (-60))) <= 1 + / 2 * bpow radix2 (-60)).
  { rewrite E. replace (IZR z * bpow radix2 (-60)) with (t + (IZR z * bpow radix2 (-60) - t)) by ring.
    eapply Rle_trans; [apply Rabs_triang|]. lra. }
  pose proof hi_64 as HH. rewrite b100 in HH. pose proof lo_64 as LL. rewrite bm100 in LL.
  destruct (norm_ok 53 1024 eq_refl eq_refl z (-60) false) as [F Er].
  { change (1024 - 1)%Z with 1023%Z. rewrite K' in B1. lra. }
  split; [exact F|].
  replace (B2R (ideal f a) - t) with ((B2R (ideal f a) - F2R (Float radix2 z (-60))) + (F2R (Float radix2 z (-60)) - t)) by ring.
  eapply Rle_trans; [apply Rabs_triang|]. rewrite E in *.
  change (2 - 1024)%Z with (-1022)%Z in Er. change (- (53))%Z with (-53)%Z in Er.
  assert (M : Rmax (Rabs (IZR z * bpow radix2 (-60))) (bpow radix2 (-1022)) <= 1 + / 2 * bpow radix2 (-60)) by (apply Rmax_lub; rewrite K' in *; lra).
  change (binary_normalize 53 1024 eq_refl eq_refl mode_NE z (-60) false) with (ideal f a) in Er.
  set (w := IZR z * bpow radix2 (-60)) in *. rewrite b52, U_val. rewrite U_val in Er. rewrite K' in D, M. lra.
Qed.
Lemma accurate_exists : accurate (Libm (ideal cos) (ideal sin)).
Proof.
  intros a _ _. cbn [lcos lsin]. split; apply ideal_ok; apply Rabs_le; [apply COS_bound|apply SIN_bound].
Qed.

(** ** integers *)
Section Integers.
  Variables (prec emax : Z).
  Context (Hp : Prec_gt_0 prec) (He : Prec_lt_emax prec emax).
  Notation bf := (binary_float prec emax).
  Lemma int_format z : Rabs (IZR z) <= bpow radix2 prec -> generic_format radix2 (SpecFloat.fexp prec emax) (IZR z).
  Proof.
    unfold Prec_gt_0, Prec_lt_emax in *.
    intros H. destruct H as [H|H].
    - apply (generic_format_FLT radix2 (3 - emax - prec) prec). exists (Float radix2 z 0).
      + unfold F2R. simpl. ring.
      + simpl. apply lt_IZR. rewrite abs_IZR. rewrite (IZR_Zpower radix2) by lia. exact H.
      + cbn [Fexp]. clear - Hp He. unfold Prec_gt_0, Prec_lt_emax in *. lia.
    - assert (G : generic_format radix2 (SpecFloat.fexp prec emax) (bpow radix2 prec)).
      { apply generic_format_bpow. unfold SpecFloat.fexp, SpecFloat.emin. lia. }
      destruct (Rcase_abs (IZR z)) as [L|L].
      + rewrite Rabs_left in H by auto. rewrite <- (Ropp_involutive (IZR z)), H. now apply generic_format_opp.
      + rewrite Rabs_right in H by auto. now rewrite H.
  Qed.
  Lemma int_rnd z : Rabs (IZR z) <= bpow radix2 prec ->
    round radix2 (SpecFloat.fexp prec emax) ZnearestE (IZR z) = IZR z /\
    Rlt_bool (Rabs (round radix2 (SpecFloat.fexp prec emax) ZnearestE (IZR z))) (bpow radix2 emax) = true.
  Proof.
    intros H. assert (E : round radix2 (SpecFloat.fexp prec emax) ZnearestE (IZR z) = IZR z).
    { apply round_generic; auto with typeclass_instances. now apply int_format. }
    split; auto. rewrite E. apply Rlt_bool_true. apply (Rle_lt_trans _ _ _ H). apply bpow_lt. exact He.
  Qed.
  Lemma int_plus (a b : bf) y z : is_finite a = true -> is_finite b = true -> B2R a = IZR y -> B2R b = IZR z ->
    Rabs (IZR y + IZR z) <= bpow radix2 prec -> is_finite (Bplus mode_NE a b) = true /\ B2R (Bplus mode_NE a b) = IZR (y + z).
  Proof.
    intros Fa Fb Ea Eb H. rewrite <- plus_IZR in H. pose proof (Bplus_correct prec emax _ _ mode_NE a b Fa Fb) as C.
    rewrite Ea, Eb, <- plus_IZR in C. simpl round_mode in C. destruct (int_rnd _ H) as [E1 E2]. rewrite E2, E1 in C. tauto.
  Qed.
  Lemma int_minus (a b : bf) y z : is_finite a = true -> is_finite b = true -> B2R a = IZR y -> B2R b = IZR z ->
    Rabs (IZR y - IZR z) <= bpow radix2 prec -> is_finite (Bminus mode_NE a b) = true /\ B2R (Bminus mode_NE a b) = IZR (y - z).
  Proof.
    intros Fa Fb Ea Eb H. rewrite <- minus_IZR in H. pose proof (Bminus_correct prec emax _ _ mode_NE a b Fa Fb) as C.
    rewrite Ea, Eb, <- minus_IZR in C. simpl round_mode in C. destruct (int_rnd _ H) as [E1 E2]. rewrite E2, E1 in C. tauto.
  Qed.
End Integers.
