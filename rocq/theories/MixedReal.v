(** * MixedRadix over exact reals *)
From Verif Require Import Lemmas Contract NxnProof NxnInst MixedRadixProof MixedContract RealDHT.
From Coq Require Import Reals Lra Lia List Arith.
Local Open Scope R_scope.

Section Decimate.
  Variables (W H : nat) (x : list R).
  Hypothesis Wp : (0 < W)%nat.
  Hypothesis Hp : (0 < H)%nat.
  Hypothesis Lx : length x = (W * H)%nat.

  (** the residue classes of the input and their transforms at +-2 pi c/H *)
  Definition xr (r s : nat) : R := nth (s * W + r) x 0.
  Definition ar (r c : nat) : R := hart H (xr r) (ang H c).
  Definition ar' (r c : nat) : R := hart H (xr r) (- ang H c).
  (** the angle of the twiddle in row r *)
  Definition beta (r c q : nat) : R := INR r * ang (W * H) c + ang W (r * q).

  Lemma WH_angle c : INR W * ang (W * H) c = ang H c.
  Proof. rewrite <- ang_mul. apply ang_scale; lia. Qed.

  Lemma ang_qH c q : ang (W * H) (q * H + c) = ang (W * H) c + ang W q.
  Proof. rewrite ang_add, Rplus_comm. f_equal. rewrite (Nat.mul_comm W), (Nat.mul_comm q). apply ang_scale; lia. Qed.

  Lemma decimate_fwd q c :
    dht_at x (q * H + c) = rsum W (fun r => cos (beta r c q) * ar r c + sin (beta r c q) * ar' r c).
  Proof.
    rewrite dht_at_hart, Lx, hart_decimate. apply rsum_ext. intros r Hr. rewrite ang_qH.
    rewrite !Rmult_plus_distr_l, WH_angle, <- !ang_mul.
    assert (E : ang W (W * q) = 2 * INR q * PI) by (rewrite Nat.mul_comm; apply ang_turns; lia). rewrite E.
    unfold beta, ar, ar', xr. rewrite <- ang_mul.
    rewrite (hart_turn H _ (ang H c) (ang H c + 2 * INR q * PI) q) by reflexivity.
    rewrite <- (hart_turn H _ (- (ang H c + 2 * INR q * PI)) (- ang H c) q) by lra. reflexivity.
  Qed.

  Lemma decimate_rev q c : (q < W)%nat -> (0 < c <= H)%nat ->
    dht_at x (q * H + (H - c)) =
    rsum W (fun r => cos (beta r c (W - 1 - q)) * ar' r c - sin (beta r c (W - 1 - q)) * ar r c).
  Proof.
    intros Hq Hc. rewrite dht_at_hart, Lx.
    assert (E : ang (W * H) (q * H + (H - c)) = - ang (W * H) ((W - 1 - q) * H + c) + 2 * INR 1 * PI).
    { assert (S : ang (W * H) (q * H + (H - c)) + ang (W * H) ((W - 1 - q) * H + c) = 2 * INR 1 * PI).
      { rewrite <- ang_add. replace (q * H + (H - c) + ((W - 1 - q) * H + c))%nat with (1 * (W * H))%nat.
        - apply ang_turns. nia.
        - replace W with ((W - 1 - q) + 1 + q)%nat at 1 by lia. lia. }
      lra. }
    rewrite (hart_turn _ _ _ _ _ E). rewrite hart_decimate. apply rsum_ext. intros r Hr. rewrite ang_qH.
    set (q' := (W - 1 - q)%nat).
    replace (INR r * - (ang (W * H) c + ang W q')) with (- beta r c q') by (unfold beta; rewrite ang_mul; lra).
    rewrite cos_neg, sin_neg.
    assert (E2 : INR W * (ang (W * H) c + ang W q') = ang H c + 2 * INR q' * PI).
    { rewrite Rmult_plus_distr_l, WH_angle, <- ang_mul. f_equal. rewrite Nat.mul_comm. apply ang_turns. lia. }
    replace (INR W * - (ang (W * H) c + ang W q')) with (- (ang H c + 2 * INR q' * PI)) by lra.
    rewrite Ropp_involutive.
    rewrite (hart_turn H _ (ang H c) (ang H c + 2 * INR q' * PI) q') by reflexivity.
    rewrite <- (hart_turn H _ (- (ang H c + 2 * INR q' * PI)) (- ang H c) q') by lra.
    unfold ar, ar', xr. lra.
  Qed.

  (** the rows after the inner transforms *)
  Context (cst : R).
  Local Hint Extern 0 (Num R) => exact (RNum cst) : typeclass_instances.
  Variable fh : list R -> list R.
  Hypothesis fh_spec : forall y, length y = H -> fh y = dht_spec y.
  Definition stored : list R := map_chunks H fh (half_rev W H x).

  Lemma stored_row r c : (r < W)%nat -> (c < H)%nat ->
    nth (r * H + c) stored 0 =
    hart H (fun s => xr r (if (r <=? W / 2)%nat then s else H - 1 - s)%nat) (ang H c).
  Proof.
    intros Hr Hc. unfold stored.
    change 0 with (nzero (T := R)) at 1.
    rewrite (nth_map_chunks H W); auto; [|apply half_rev_length|].
    2:{ intros y Hy. rewrite fh_spec by auto. now rewrite dht_spec_length. }
    unfold half_rev. rewrite slice_tab by auto.
    rewrite fh_spec by (now rewrite map_length, seq_length). simpl nzero.
    rewrite nth_dht_spec by (now rewrite map_length, seq_length).
    rewrite dht_at_hart, map_length, seq_length. unfold hart. apply rsum_ext. intros s Hs.
    rewrite nth_map_seq by auto. reflexivity.
  Qed.

  Lemma stored_length : length stored = (W * H)%nat.
  Proof.
    unfold stored. rewrite (map_chunks_length H W); auto; [apply half_rev_length|].
    intros y Hy. rewrite fh_spec by auto. now rewrite dht_spec_length.
  Qed.

  (** column c, and column H-c, in terms of the a r *)
  Lemma stored_low r c : (r < W)%nat -> (c < H)%nat -> (r <= W / 2)%nat ->
    nth (r * H + c) stored 0 = ar r c.
  Proof.
    intros Hr Hc Hl. rewrite stored_row by auto. destruct (Nat.leb_spec r (W / 2)); [|lia]. reflexivity.
  Qed.
  Lemma ar_neg r c : (0 < c <= H)%nat -> ar r (H - c) = ar' r c.
  Proof.
    intros Hc. unfold ar, ar'. apply (hart_turn _ _ _ _ 1). rewrite <- ang_turns with (n := H) by lia.
    assert (ang H (1 * H) = ang H (H - c) + ang H c).
    { rewrite <- ang_add. f_equal. lia. }
    lra.
  Qed.
  Lemma stored_high r c : (r < W)%nat -> (c < H)%nat -> (W / 2 < r)%nat ->
    nth (r * H + c) stored 0 = cos (ang H c) * ar' r c - sin (ang H c) * ar r c.
  Proof.
    intros Hr Hc Hl. rewrite stored_row by auto. destruct (Nat.leb_spec r (W / 2)); [lia|].
    rewrite (hart_rev H (xr r) (ang H c) c).
    - reflexivity.
    - left. rewrite <- ang_mul, Nat.mul_comm. apply ang_turns. lia.
  Qed.
  Lemma stored_low' r c : (r < W)%nat -> (0 < c <= H)%nat -> (r <= W / 2)%nat ->
    nth (r * H + (H - c)) stored 0 = ar' r c.
  Proof. intros Hr Hc Hl. rewrite stored_low by (auto; lia). now apply ar_neg. Qed.
  Lemma stored_high' r c : (r < W)%nat -> (0 < c < H)%nat -> (W / 2 < r)%nat ->
    nth (r * H + (H - c)) stored 0 = cos (ang H c) * ar r c + sin (ang H c) * ar' r c.
  Proof.
    intros Hr Hc Hl. rewrite stored_high by (auto; lia). rewrite ar_neg by lia.
    assert (ar' r (H - c) = ar r c).
    { rewrite <- (ar_neg r (H - c)) by lia. f_equal. lia. }
    rewrite H0. destruct (ang_opp H c (H - c) 1 ltac:(lia) ltac:(lia)) as [E1 E2]. rewrite E1, E2. lra.
  Qed.
  (** column 0: the sums of the residue classes *)
  Lemma stored_zero r : (r < W)%nat -> nth (r * H + 0) stored 0 = rsum H (xr r).
  Proof.
    intros Hr. rewrite stored_row by auto. unfold hart. rewrite ang_0.
    destruct (Nat.leb_spec r (W / 2)).
    - apply rsum_ext. intros. rewrite Rmult_0_r. unfold cas. rewrite cos_0, sin_0. lra.
    - rewrite (rsum_rev H (xr r)). apply rsum_ext. intros. rewrite Rmult_0_r. unfold cas. rewrite cos_0, sin_0. lra.
  Qed.
  Lemma dht_at_col0 q :
    dht_at x (q * H) = rsum W (fun r => rsum H (xr r) * cas (ang W (r * q))).
  Proof.
    rewrite <- (Nat.add_0_r (q * H)), decimate_fwd. apply rsum_ext. intros r Hr.
    unfold beta, ar, ar'. rewrite !ang_0, Ropp_0, Rmult_0_r, Rplus_0_l.
    assert (E : hart H (xr r) 0 = rsum H (xr r)).
    { unfold hart. apply rsum_ext. intros. rewrite Rmult_0_r. unfold cas. rewrite cos_0, sin_0. lra. }
    rewrite E. unfold cas. lra.
  Qed.
End Decimate.

(** ** the twiddles *)
Lemma tw8_val cst W H r c : (0 < W)%nat -> (0 < H)%nat ->
  let t := @tw8 R (RNum cst) W H r c in
  let a := INR r * ang (W * H) c in
  re t = cst * sqrt 2 / 2 * (cos a - sin a) /\ im t = cst * sqrt 2 / 2 * (cos a + sin a).
Proof.
  intros Wp Hp. cbv zeta. unfold tw8, cscale, compute_dft_twiddle_inverse. cbn [re im ncos nsin nmul nroot_half RNum].
  assert (0 < INR W) by (apply lt_0_INR; auto). assert (0 < INR H) by (apply lt_0_INR; auto).
  assert (E : 1 * 2 * PI / INR (W * H * 8) * INR (r * c * 8 + W * H) = INR r * ang (W * H) c + PI / 4).
  { unfold ang. rewrite plus_INR, !mult_INR. simpl (INR 8). field. lra. }
  rewrite E, cos_plus, sin_plus, cos_PI4, sin_PI4.
  assert (S2 : 1 / sqrt 2 = sqrt 2 / 2).
  { assert (sqrt 2 * sqrt 2 = 2) by (apply sqrt_sqrt; lra).
    assert (0 < sqrt 2) by (apply sqrt_lt_R0; lra). apply Rmult_eq_reg_l with (sqrt 2); [|lra]. field_simplify; [|lra]. lra. }
  rewrite S2. split; lra.
Qed.

Lemma pair_term rho a psi P Q s d :
  s = rho / 2 * (cos a - sin a) -> d = rho / 2 * (cos a + sin a) ->
  (s * P - d * Q) * cas psi + (s * Q + d * P) * cas (- psi) = rho * (cos (a + psi) * P - sin (a + psi) * Q).
Proof. intros -> ->. rewrite cas_neg. unfold cas. rewrite cos_plus, sin_plus. lra. Qed.

Section MixedExact.
  Variables (W H : nat) (x : list R).
  Hypothesis Wp : (0 < W)%nat.
  Hypothesis Hp : (0 < H)%nat.
  Hypothesis Lx : length x = (W * H)%nat.
  Context (cst : R).
  Local Hint Extern 0 (Num R) => exact (RNum cst) : typeclass_instances.
  Let rho := cst * sqrt 2.
  Variables fw fh : list R -> list R.
  Hypothesis fw_spec : forall y, length y = W -> fw y = dht_spec y.
  Hypothesis fh_spec : forall y, length y = H -> fh y = dht_spec y.
  Let st := stored W H x cst fh.
  Let a := ar W H x.
  Let a' := ar' W H x.

  (** the entries r <= W/2 and r > W/2 of the columns c and H-c *)
  Lemma col_low r c : (0 < c < H)%nat -> (2 * r <= W)%nat -> (r < W)%nat ->
    nth r (col W H st c) 0 = a r c /\ nth r (col W H st (H - c)) 0 = a' r c.
  Proof.
    intros Hc Hr Hw. rewrite !nth_col by auto. split.
    - apply stored_low; auto; try lia. apply Nat.div_le_lower_bound; lia.
    - apply stored_low'; auto; try lia. apply Nat.div_le_lower_bound; lia.
  Qed.
  Lemma col_high r c : (0 < c < H)%nat -> (W < 2 * r)%nat -> (r < W)%nat ->
    nth r (col W H st c) 0 = cos (ang H c) * a' r c - sin (ang H c) * a r c /\
    nth r (col W H st (H - c)) 0 = cos (ang H c) * a r c + sin (ang H c) * a' r c.
  Proof.
    intros Hc Hr Hw. rewrite !nth_col by auto. split.
    - apply stored_high; auto; try lia. apply Nat.div_lt_upper_bound; lia.
    - apply stored_high'; auto; try lia. apply Nat.div_lt_upper_bound; lia.
  Qed.

  Lemma beta_opp r c q : (r <= W)%nat ->
    cos (beta W H (W - r) c q) = cos (ang H c - beta W H r c q) /\
    sin (beta W H (W - r) c q) = sin (ang H c - beta W H r c q).
  Proof.
    intros Hr. assert (E : beta W H (W - r) c q = ang H c - beta W H r c q + 2 * INR q * PI).
    { unfold beta. rewrite minus_INR by auto. rewrite Rmult_minus_distr_r, (WH_angle W H x Wp Hp Lx).
      assert (ang W ((W - r) * q) + ang W (r * q) = 2 * INR q * PI).
      { rewrite <- ang_add, <- ang_turns with (n := W) by lia. f_equal.
        rewrite <- Nat.mul_add_distr_r. replace (W - r + r)%nat with W by lia. lia. }
      lra. }
    rewrite E. split; [apply cos_turn|apply sin_turn].
  Qed.

  Lemma cas_ang_opp r q : (r <= W)%nat -> cas (ang W ((W - r) * q)) = cas (- ang W (r * q)).
  Proof.
    intros Hr. apply (cas_opp W (r * q) ((W - r) * q) q); [lia|].
    rewrite <- Nat.mul_add_distr_r. replace (r + (W - r))%nat with W by lia. lia.
  Qed.

  Ltac dec :=
    repeat match goal with
    | |- context [Nat.eqb ?a ?b] => destruct (Nat.eqb_spec a b); try lia
    | |- context [Nat.ltb ?a ?b] => destruct (Nat.ltb_spec a b); try lia
    end.

  (** the sum over the twiddled column is the decimated transform *)
  Lemma fwd_sum c q : (0 < c < H)%nat ->
    rsum W (fun r => mixed_fwd W (fun r => tw8 W H r c) (col W H st c) (col W H st (H - c)) r * cas (ang W (r * q))) =
    rho * dht_at x (q * H + c) + (1 - rho) * a 0 c.
  Proof.
    intros Hc. rewrite (decimate_fwd W H x Wp Hp Lx q c). fold a a'.
    set (T r := cos (beta W H r c q) * a r c + sin (beta W H r c q) * a' r c).
    set (Z := mixed_fwd W (fun r => tw8 W H r c) (col W H st c) (col W H st (H - c))).
    assert (T0 : T 0%nat = a 0%nat c).
    { unfold T, beta. simpl. rewrite ang_0, Rmult_0_l, Rplus_0_l, cos_0, sin_0. lra. }
    transitivity (rsum W (fun r => rho * T r + (if (r =? 0)%nat then (1 - rho) * a 0%nat c else 0))).
    2:{ rewrite rsum_add, rsum_scal. f_equal. now rewrite (rsum_single W 0) by (auto; intros; dec; auto). }
    apply (rsum_pairs W (fun r => Z r * cas (ang W (r * q)))).
    - simpl (0 =? 0)%nat. cbv beta iota. rewrite T0. unfold Z, mixed_fwd. simpl (0 =? 0)%nat. cbn [nzero RNum].
      rewrite (proj1 (col_low 0 c Hc ltac:(lia) Wp)). simpl. rewrite ang_0. unfold cas. rewrite cos_0, sin_0. lra.
    - assert (P : forall r, (1 <= r)%nat -> (2 * r < W)%nat ->
        Z r * cas (ang W (r * q)) + Z (W - r)%nat * cas (ang W ((W - r) * q)) = rho * T r + rho * T (W - r)%nat).
      { intros r H1 H2. unfold Z, mixed_fwd. dec. replace (W - (W - r))%nat with r by lia.
        destruct (tw8_val cst W H r c Wp Hp) as [Er Ei]. fold rho in Er, Ei. 
        set (tr := re (tw8 W H r c)) in *. set (ti := im (tw8 W H r c)) in *. clearbody tr ti.
        destruct (col_low r c Hc ltac:(lia) ltac:(lia)) as [E1 E2].
        destruct (col_high (W - r) c Hc ltac:(lia) ltac:(lia)) as [E3 E4].
        cbn [nadd nsub nmul RNum nzero]. rewrite E1, E2, E3, E4.
        rewrite cas_ang_opp by lia.
        destruct (beta_opp r c q ltac:(lia)) as [B1 B2]. unfold T. rewrite B1, B2.
        set (b := cos (ang H c) * a' (W - r) c - sin (ang H c) * a (W - r) c).
        set (b' := cos (ang H c) * a (W - r) c + sin (ang H c) * a' (W - r) c).
        pose proof (pair_term rho _ (ang W (r * q)) (a r c + b') (b - a' r c) tr ti Er Ei) as PT.
        fold (beta W H r c q) in PT. unfold b, b' in PT.
        rewrite cos_minus, sin_minus.
        pose proof (sin2_cos2 (ang H c)) as SC. unfold Rsqr in SC.
        set (cb := cos (beta W H r c q)) in *. set (sb := sin (beta W H r c q)) in *.
        set (cf := cos (ang H c)) in *. set (sf := sin (ang H c)) in *.
        unfold b, b'. nra. }
      intros r Hr. dec. rewrite !Rplus_0_r.
      destruct (lt_eq_lt_dec (2 * r) W) as [[L|L]|L].
      + apply P; lia.
      + (* r = W/2 *)
        replace (W - r)%nat with r by lia.
        enough (Z r * cas (ang W (r * q)) = rho * T r) by lra.
        unfold Z, mixed_fwd. dec.
        destruct (tw8_val cst W H r c Wp Hp) as [Er Ei]. fold rho in Er, Ei. 
        set (tr := re (tw8 W H r c)) in *. set (ti := im (tw8 W H r c)) in *. clearbody tr ti.
        destruct (col_low r c Hc ltac:(lia) ltac:(lia)) as [E1 E2].
        cbn [nadd nsub nmul RNum nzero]. rewrite E1, E2.
        assert (S0 : sin (ang W (r * q)) = 0).
        { destruct (ang_opp W (r * q) (r * q) q ltac:(lia)) as [_ S]; [nia|]. lra. }
        unfold T, beta. rewrite cos_plus, sin_plus, S0. unfold cas. rewrite S0, Er, Ei. lra.
      + specialize (P (W - r)%nat ltac:(lia) ltac:(lia)). replace (W - (W - r))%nat with r in P by lia. lra.
  Qed.

  (** the same for the mirrored column *)
  Lemma rev_sum c q : (q < W)%nat -> (0 < c < H)%nat ->
    rsum W (fun r => mixed_rev W (fun r => tw8 W H r c) (col W H st c) (col W H st (H - c)) r * cas (ang W (r * (W - 1 - q)))) =
    rho * dht_at x (q * H + (H - c)) + (1 - rho) * a' 0 c.
  Proof.
    intros Hq Hc. rewrite (decimate_rev W H x Wp Hp Lx q c) by lia. fold a a'. set (q' := (W - 1 - q)%nat). clearbody q'. clear q Hq. rename q' into q.
    set (T r := cos (beta W H r c q) * a' r c - sin (beta W H r c q) * a r c).
    set (Z := mixed_rev W (fun r => tw8 W H r c) (col W H st c) (col W H st (H - c))).
    assert (T0 : T 0%nat = a' 0%nat c).
    { unfold T, beta. simpl. rewrite ang_0, Rmult_0_l, Rplus_0_l, cos_0, sin_0. lra. }
    transitivity (rsum W (fun r => rho * T r + (if (r =? 0)%nat then (1 - rho) * a' 0%nat c else 0))).
    2:{ rewrite rsum_add, rsum_scal. f_equal. now rewrite (rsum_single W 0) by (auto; intros; dec; auto). }
    apply (rsum_pairs W (fun r => Z r * cas (ang W (r * q)))).
    - simpl (0 =? 0)%nat. cbv beta iota. rewrite T0. unfold Z, mixed_rev. simpl (0 =? 0)%nat. cbn [nzero RNum].
      rewrite (proj2 (col_low 0 c Hc ltac:(lia) Wp)). simpl. rewrite ang_0. unfold cas. rewrite cos_0, sin_0. lra.
    - assert (P : forall r, (1 <= r)%nat -> (2 * r < W)%nat ->
        Z r * cas (ang W (r * q)) + Z (W - r)%nat * cas (ang W ((W - r) * q)) = rho * T r + rho * T (W - r)%nat).
      { intros r H1 H2. unfold Z, mixed_rev. dec. replace (W - (W - r))%nat with r by lia.
        destruct (tw8_val cst W H r c Wp Hp) as [Er Ei]. fold rho in Er, Ei. 
        set (tr := re (tw8 W H r c)) in *. set (ti := im (tw8 W H r c)) in *. clearbody tr ti.
        destruct (col_low r c Hc ltac:(lia) ltac:(lia)) as [E1 E2].
        destruct (col_high (W - r) c Hc ltac:(lia) ltac:(lia)) as [E3 E4].
        cbn [nadd nsub nmul RNum nzero]. rewrite E1, E2, E3, E4.
        rewrite cas_ang_opp by lia.
        destruct (beta_opp r c q ltac:(lia)) as [B1 B2]. unfold T. rewrite B1, B2.
        set (b := cos (ang H c) * a' (W - r) c - sin (ang H c) * a (W - r) c).
        set (b' := cos (ang H c) * a (W - r) c + sin (ang H c) * a' (W - r) c).
        pose proof (pair_term rho _ (ang W (r * q)) (b + a' r c) (a r c - b') tr ti Er Ei) as PT.
        fold (beta W H r c q) in PT. unfold b, b' in PT.
        rewrite cos_minus, sin_minus.
        pose proof (sin2_cos2 (ang H c)) as SC. unfold Rsqr in SC.
        set (cb := cos (beta W H r c q)) in *. set (sb := sin (beta W H r c q)) in *.
        set (cf := cos (ang H c)) in *. set (sf := sin (ang H c)) in *.
        unfold b, b'. nra. }
      intros r Hr. dec. rewrite !Rplus_0_r.
      destruct (lt_eq_lt_dec (2 * r) W) as [[L|L]|L].
      + apply P; lia.
      + (* r = W/2 *)
        replace (W - r)%nat with r by lia.
        enough (Z r * cas (ang W (r * q)) = rho * T r) by lra.
        unfold Z, mixed_rev. dec.
        destruct (tw8_val cst W H r c Wp Hp) as [Er Ei]. fold rho in Er, Ei. 
        set (tr := re (tw8 W H r c)) in *. set (ti := im (tw8 W H r c)) in *. clearbody tr ti.
        destruct (col_low r c Hc ltac:(lia) ltac:(lia)) as [E1 E2].
        cbn [nadd nsub nmul RNum nzero]. rewrite E1, E2.
        assert (S0 : sin (ang W (r * q)) = 0).
        { destruct (ang_opp W (r * q) (r * q) q ltac:(lia)) as [_ S]; [nia|]. lra. }
        unfold T, beta. rewrite cos_plus, sin_plus, S0. unfold cas. rewrite S0, Er, Ei. lra.
      + specialize (P (W - r)%nat ltac:(lia) ltac:(lia)). replace (W - (W - r))%nat with r in P by lia. lra.
  Qed.

  Lemma nth_dht_map (u : nat -> R) q : (q < W)%nat ->
    nth q (fw (map u (seq 0 W))) 0 = rsum W (fun r => u r * cas (ang W (r * q))).
  Proof.
    intros Hq. rewrite fw_spec by (now rewrite map_length, seq_length).
    rewrite nth_dht_spec by (now rewrite map_length, seq_length).
    unfold dht_at. rewrite map_length, seq_length. apply rsum_ext. intros r Hr. now rewrite nth_map_seq.
  Qed.

  (** every output cell; [rho] = 1 when the constant is exact *)
  Lemma mixed_cell_real q c : (q < W)%nat -> (c < H)%nat ->
    nth (q * H + c) (cols_fun W H fw (mixed_pairp W fw) (fun c r => tw8 W H r c) st) 0 =
    if (c =? 0)%nat then dht_at x (q * H + c) else rho * dht_at x (q * H + c) + (1 - rho) * a 0 c.
  Proof.
    intros Hq Hc. unfold cols_fun. change 0 with (@nzero R (RNum cst)) at 1. rewrite nth_tab by auto.
    unfold cols_cell. cbn [nzero RNum]. destruct (Nat.eqb_spec c 0) as [->|N].
    - unfold col. rewrite nth_dht_map by auto. rewrite Nat.add_0_r, (dht_at_col0 W H x Wp Hp Lx).
      apply rsum_ext. intros r Hr. f_equal. cbn [nzero RNum]. apply stored_zero; auto.
    - destruct (Nat.ltb_spec (2 * c) H).
      + simpl fst. rewrite nth_dht_map by auto. apply fwd_sum; lia.
      + simpl snd. assert (E : length (fw (map (mixed_rev W (fun r => tw8 W H r (H - c)) (col W H st (H - c)) (col W H st c)) (seq 0 W))) = W).
        { rewrite fw_spec by (now rewrite map_length, seq_length). now rewrite dht_spec_length, map_length, seq_length. }
        rewrite rev_nth by (rewrite E; auto). rewrite E. rewrite nth_dht_map by lia.
        pose proof (rev_sum (H - c) q Hq ltac:(lia)) as P. replace (H - (H - c))%nat with c in P by lia.
        replace (W - S q)%nat with (W - 1 - q)%nat by lia. rewrite P.
        unfold a', a. rewrite <- ar_neg by (auto; lia). replace (H - (H - c))%nat with c by lia. reflexivity.
  Qed.

  Lemma mixed_real : rho = 1 ->
    cols_fun W H fw (mixed_pairp W fw) (fun c r => tw8 W H r c) st = dht_spec x.
  Proof.
    intros Er. apply dht_spec_ext.
    - unfold cols_fun. now rewrite tab_length.
    - intros k Hk. rewrite Lx in Hk.
      rewrite (Nat.div_mod k H) by lia. rewrite (Nat.mul_comm H).
      assert (k mod H < H)%nat by (apply Nat.mod_upper_bound; lia).
      assert (k / H < W)%nat by (apply Nat.div_lt_upper_bound; lia).
      rewrite mixed_cell_real by auto. rewrite Er. destruct (k mod H =? 0)%nat; lra.
  Qed.
End MixedExact.

Lemma rh_rho : rh * sqrt 2 = 1.
Proof. unfold rh. rewrite <- sqrt_mult by lra. replace (/ 2 * 2) with 1 by lra. apply sqrt_1. Qed.
