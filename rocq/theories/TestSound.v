(** * What compare_real_vectors accepts *)
From Verif Require Import Lemmas IeeeProof DHTTheory RealDHT.
From Verif Require Export TestProof.
From Coq Require Import Reals Lra Lia ZArith NArith Psatz.
From Coq Require Floats.SpecFloat.
Local Open Scope R_scope.

Section Format.
  Variables (prec emax : Z).
  Context (Hp : Prec_gt_0 prec) (He : Prec_lt_emax prec emax).
  Notation bf := (binary_float prec emax).
  Notation rnd := (round radix2 (SpecFloat.fexp prec emax) ZnearestE).
  Notation plus := (@Bplus prec emax Hp He mode_NE).
  Notation minus := (@Bminus prec emax Hp He mode_NE).
  Notation div := (@Bdiv prec emax Hp He mode_NE).
  Let u := bpow radix2 (- prec).
  Let fexp_valid : Valid_exp (SpecFloat.fexp prec emax) := fexp_correct prec emax Hp.

  Lemma not_infinite (v : bf) s : is_finite v = true -> B2SF v = binary_overflow prec emax mode_NE s -> False.
  Proof. intros F E. destruct v; cbn in *; discriminate. Qed.

  Lemma plus_finite (a b : bf) : is_finite (plus a b) = true ->
    is_finite a = true /\ is_finite b = true /\ B2R (plus a b) = rnd (B2R a + B2R b).
  Proof.
    intros F. assert (FF : is_finite a = true /\ is_finite b = true).
    { destruct a as [[|]|[|]| |], b as [[|]|[|]| |]; try discriminate F; split; reflexivity. }
    destruct FF as [Fa Fb]. split; auto. split; auto.
    pose proof (Bplus_correct prec emax _ _ mode_NE a b Fa Fb) as C. simpl round_mode in C.
    destruct (Rlt_bool _ _); [apply C|]. exfalso. destruct C as [C _]. exact (not_infinite _ _ F C).
  Qed.
  Lemma minus_finite (a b : bf) : is_finite (minus a b) = true ->
    is_finite a = true /\ is_finite b = true /\ B2R (minus a b) = rnd (B2R a - B2R b).
  Proof.
    intros F. assert (FF : is_finite a = true /\ is_finite b = true).
    { destruct a as [[|]|[|]| |], b as [[|]|[|]| |]; try discriminate F; split; reflexivity. }
    destruct FF as [Fa Fb]. split; auto. split; auto.
    pose proof (Bminus_correct prec emax _ _ mode_NE a b Fa Fb) as C. simpl round_mode in C.
    destruct (Rlt_bool _ _); [apply C|]. exfalso. destruct C as [C _]. exact (not_infinite _ _ F C).
  Qed.
  Lemma sign_nonneg (a : bf) : Bsign a = false -> 0 <= B2R a.
  Proof.
    destruct a as [s|s| |s m e H]; cbn; intros S; try lra. subst s. unfold F2R. cbn. apply Rmult_le_pos; [apply IZR_le; lia|apply bpow_ge_0].
  Qed.
  Lemma plus_sign (a b : bf) : Bsign a = false -> Bsign b = false -> Bsign (plus a b) = false.
  Proof.
    intros Sa Sb. destruct (is_finite a) eqn:Fa; [destruct (is_finite b) eqn:Fb|].
    - pose proof (Bplus_correct prec emax _ _ mode_NE a b Fa Fb) as C. simpl round_mode in C.
      destruct (Rlt_bool _ _).
      + destruct C as (_ & _ & ->). rewrite Sa. pose proof (sign_nonneg a Sa). pose proof (sign_nonneg b Sb).
        destruct (Rcompare_spec (B2R a + B2R b) 0); auto; lra.
      + destruct C as (C & _). rewrite Sa in C. destruct (plus a b); cbn in *; try discriminate. now injection C as ->.
    - destruct a as [[|]|[|]| |], b as [[|]|[|]| |]; cbn in *; try discriminate; reflexivity.
    - destruct a as [[|]|[|]| |], b as [[|]|[|]| |]; cbn in *; try discriminate; reflexivity.
  Qed.

  Notation step := (fun (error : bf) '(a, b) => plus error (Babs (minus a b))).
  Definition diffs (l : list (bf * bf)) : R := fold_right (fun p s => Rabs (B2R (fst p) - B2R (snd p)) + s) 0 l.
  Lemma diffs_pos l : 0 <= diffs l.
  Proof. induction l as [|p l IH]; cbn; [lra|]. pose proof (Rabs_pos (B2R (fst p) - B2R (snd p))). unfold diffs in IH. lra. Qed.
  Lemma fold_sign l : forall acc, Bsign acc = false -> Bsign (fold_left step l acc) = false.
  Proof. induction l as [|[a b] l IH]; cbn; auto. intros acc S. apply IH. apply plus_sign; auto. apply Bsign_Babs. Qed.
  Lemma u_bounds : 0 <= u < 1.
  Proof. split; [apply bpow_ge_0|]. change 1 with (bpow radix2 0). apply bpow_lt. unfold Prec_gt_0 in Hp. lia. Qed.
  Lemma rnd_lower (a b : bf) : 0 <= B2R a -> 0 <= B2R b -> (1 - u) * (B2R a + B2R b) <= rnd (B2R a + B2R b).
  Proof.
    intros A B. pose proof (rnd_plus prec emax Hp a b) as R. fold u in R. rewrite (Rabs_pos_eq (B2R a + B2R b)) in R by lra.
    apply Rabs_le_inv in R. lra.
  Qed.
  Lemma fold_sound l : forall acc, Bsign acc = false -> is_finite (fold_left step l acc) = true ->
    is_finite acc = true /\ Forall (fun p => is_finite (fst p) = true /\ is_finite (snd p) = true) l /\
    (1 - u) ^ length l * (B2R acc + (1 - u) * diffs l) <= B2R (fold_left step l acc).
  Proof.
    pose proof u_bounds as U.
    induction l as [|[a b] l IH]; intros acc S F.
    { cbn in *. split; auto. split; auto. lra. }
    cbn [fold_left] in *. destruct (IH (plus acc (Babs (minus a b)))) as (F1 & F2 & B); auto.
    { apply plus_sign; auto. apply Bsign_Babs. }
    destruct (plus_finite _ _ F1) as (F3 & F4 & E). rewrite is_finite_Babs in F4. destruct (minus_finite _ _ F4) as (F5 & F6 & E').
    split; auto. split; [constructor; auto|].
    eapply Rle_trans; [|exact B]. cbn [length pow diffs fold_right fst snd]. fold (diffs l).
    replace ((1 - u) * (1 - u) ^ length l) with ((1 - u) ^ length l * (1 - u)) by ring. rewrite Rmult_assoc.
    apply Rmult_le_compat_l; [apply pow_le; lra|]. rewrite E.
    pose proof (sign_nonneg acc S) as A. pose proof (rnd_lower acc (Babs (minus a b)) A) as R. rewrite B2R_Babs in *.
    specialize (R (Rabs_pos _)).
    assert (M : (1 - u) * Rabs (B2R a - B2R b) <= Rabs (B2R (minus a b))).
    { rewrite E'. pose proof (rnd_plus prec emax Hp a (Bopp b)) as Q. fold u in Q. rewrite B2R_Bopp in Q. fold (B2R a - B2R b) in Q.
      pose proof (Rabs_triang (B2R a - B2R b - rnd (B2R a - B2R b)) (rnd (B2R a - B2R b))) as Tr.
      replace (B2R a - B2R b - rnd (B2R a - B2R b) + rnd (B2R a - B2R b)) with (B2R a - B2R b) in Tr by ring.
      rewrite (Rabs_minus_sym (B2R a - B2R b) (rnd (B2R a - B2R b))) in Tr. lra. }
    pose proof (diffs_pos l) as D. pose proof (Rabs_pos (B2R a - B2R b)) as D'.
    set (x := Rabs (B2R a - B2R b)) in *. set (y := Rabs (B2R (minus a b))) in *. set (z := diffs l) in *. set (w := B2R acc) in *.
    assert ((1 - u) * ((1 - u) * x) <= (1 - u) * y) by (apply Rmult_le_compat_l; lra).
    assert ((1 - u) * ((1 - u) * z) <= 1 * ((1 - u) * z)) by (apply Rmult_le_compat_r; [apply Rmult_le_pos|]; lra).
    lra.
  Qed.

  (** the quotient *)
  Lemma div_lt (a b c : bf) : is_finite b = true -> 0 < B2R b -> is_finite c = true -> 0 <= B2R c -> Bsign a = false ->
    Bltb (div a b) c = true -> is_finite a = true /\ B2R a < B2R c * B2R b.
  Proof.
    intros Fb Pb Fc Pc Sa Lt.
    assert (Fd : is_finite (div a b) = true).
    { destruct (is_finite (div a b)) eqn:Fd; auto. exfalso.
      destruct (div a b) as [s|s| |s m e H] eqn:Ed; try discriminate.
      - destruct s.
        + (* -infinity is impossible *)
          assert (N : Bsign (div a b) = true) by (rewrite Ed; reflexivity).
          pose proof (Bdiv_correct prec emax _ _ mode_NE a b ltac:(lra)) as C.
          assert (Sb : Bsign b = false).
          { destruct b as [sb|sb| |sb mb eb Hb]; cbn in Pb, Fb |- *; try lra; try discriminate. destruct sb; auto. exfalso.
            unfold F2R in Pb; cbn in Pb. pose proof (bpow_gt_0 radix2 eb). assert (IZR (Z.neg mb) < 0) by (apply IZR_lt; lia). nra. }
          destruct (Rlt_bool _ _).
          * destruct C as (_ & _ & C). rewrite Sa, Sb in C. rewrite C in N; [discriminate|]. rewrite Ed. reflexivity.
          * rewrite Sa, Sb in C. rewrite Ed in C. discriminate.
        + unfold Bltb in Lt. destruct c as [sc|sc| |sc mc ec Hc]; cbn in Lt; try discriminate; destruct sc; discriminate. }
    pose proof (Bdiv_correct prec emax _ _ mode_NE a b ltac:(lra)) as C. simpl round_mode in C.
    destruct (Rlt_bool _ _).
    2:{ exfalso. exact (not_infinite _ _ Fd C). }
    destruct C as (E & F & _). rewrite Fd in F. split; [auto|].
    rewrite Bltb_correct in Lt by auto. rewrite E in Lt.
    destruct (Rlt_bool_spec (rnd (B2R a / B2R b)) (B2R c)) as [Q|]; [|discriminate].
    apply Rnot_le_lt. intros M. apply (Rlt_not_le _ _ Q).
    apply round_ge_generic; auto with typeclass_instances; [apply generic_format_B2R|].
    apply (Rmult_le_reg_r (B2R b)); auto. unfold Rdiv. rewrite Rmult_assoc, Rinv_l by lra. lra.
  Qed.
End Format.

Lemma diffs_total prec emax (v1 v2 : list (binary_float prec emax)) : length v1 = length v2 ->
  diffs prec emax (combine v1 v2) = total_difference (map B2R v1) (map B2R v2).
Proof.
  unfold total_difference. revert v2. induction v1 as [|a v1 IH]; intros [|b v2] L; try discriminate L; [reflexivity|].
  injection L as L. cbn [combine diffs fold_right map length fst snd]. rewrite rsum_S_l. cbn [nth]. f_equal. exact (IH v2 L).
Qed.
Lemma combine_split A (P : A -> Prop) (v1 v2 : list A) : length v1 = length v2 ->
  Forall (fun p => P (fst p) /\ P (snd p)) (combine v1 v2) -> Forall P v1 /\ Forall P v2.
Proof.
  revert v2. induction v1 as [|a v1 IH]; intros [|b v2] L H; try discriminate L; [auto|].
  injection L as L. cbn [combine] in H. apply Forall_cons_iff in H as [[A1 A2] H]. destruct (IH v2 L H). auto.
Qed.
Lemma to_f64_finite (v : f32) : is_finite (f64_of_f32 v) = true -> is_finite v = true.
Proof. destruct v; auto. Qed.
Lemma to_f64_sign (v : f32) : Bsign v = false -> Bsign (f64_of_f32 v) = false.
Proof.
  intros S. destruct v as [s| | |s m e H] eqn:E; auto. cbn in S. subst s.
  destruct (f64_of_f32_exact v) as [F B]; [now rewrite E|]. rewrite E in F, B.
  assert (P : 0 < B2R (f64_of_f32 (B754_finite false m e H))).
  { rewrite B. cbn. unfold F2R. cbn. apply Rmult_lt_0_compat; [apply IZR_lt; lia|apply bpow_gt_0]. }
  destruct (f64_of_f32 (B754_finite false m e H)) as [s| | |s m' e' H']; cbn in P, F |- *; try lra; try discriminate.
  destruct s; auto. exfalso. unfold F2R in P; cbn in P. pose proof (bpow_gt_0 radix2 e'). assert (IZR (Z.neg m') < 0) by (apply IZR_lt; lia). nra.
Qed.

Section Accept.
  Context (prec emax : Z) (Hp : Prec_gt_0 prec) (He : Prec_lt_emax prec emax).
  Notation bf := (binary_float prec emax).
  Context (N : Num bf) (FT : FloatNum bf).
  Hypothesis Hadd : forall a b, nadd a b = @Bplus prec emax Hp He mode_NE a b.
  Hypothesis Hsub : forall a b, nsub a b = @Bminus prec emax Hp He mode_NE a b.
  Hypothesis Hzero : nzero = B754_zero false.
  Hypothesis Habs : forall a, fl_abs a = Babs a.
  Hypothesis Hfin : forall a : bf, is_finite (fl_to_f64 a) = true -> is_finite a = true /\ B2R (fl_to_f64 a) = B2R a.
  Hypothesis Hsign : forall a : bf, Bsign a = false -> Bsign (fl_to_f64 a) = false.

  Lemma compare_sound (v1 v2 : list bf) : usz (length v1) -> compare_real_vectors v1 v2 = Ok true ->
    length v1 = length v2 /\ (0 < length v1)%nat /\ Forall (fun v => is_finite v = true) v1 /\ Forall (fun v => is_finite v = true) v2 /\
    (1 - bpow radix2 (- prec)) ^ (length v1 + 1) * total_difference (map B2R v1) (map B2R v2) <= (/ 10 + bpow radix2 (-50)) * INR (length v1).
  Proof.
    intros Us C. unfold compare_real_vectors in C. destruct (Nat.eqb_spec (length v1) (length v2)) as [L|]; [|discriminate].
    cbn [rassert bind] in C. cbv zeta in C. injection C as C. split; auto.
    set (g := fun (error : bf) (p : bf * bf) => let '(a, b) := p in nadd error (fl_abs (nsub a b))) in C.
    assert (E : forall l acc, fold_left g l acc = fold_left (fun (error : bf) '(a, b) => Bplus mode_NE error (Babs (Bminus mode_NE a b))) l acc).
    { induction l as [|[a b] l IH]; intros acc; [reflexivity|]. cbn [fold_left]. rewrite IH. unfold g at 1. now rewrite Hadd, Hsub, Habs. }
    rewrite E, Hzero in C. assert (P : (0 < length v1)%nat).
    { destruct v1 as [|a1 v1']; [|cbn; lia]. exfalso. destruct v2; [|discriminate]. clear E. cbn [combine fold_left] in C.
      assert (Z : is_nan (f64_div (fl_to_f64 (B754_zero false : bf)) (f64_of_usize 0)) = true \/ Bltb (f64_div (fl_to_f64 (B754_zero false : bf)) (f64_of_usize 0)) f64_tenth = false).
      { pose proof (Hsign (B754_zero false) eq_refl) as S. destruct (fl_to_f64 (B754_zero false : bf)) as [s|s| |s m e Hb]; cbn in S; subst; cbn.
        - left. reflexivity.
        - right. reflexivity.
        - left. reflexivity.
        - right. reflexivity. }
      cbn [length] in C. destruct Z as [Z|Z]; [|congruence].
      destruct (f64_div (fl_to_f64 (B754_zero false : bf)) (f64_of_usize 0)); try discriminate Z. discriminate C. }
    split; auto. set (r := fold_left _ (combine v1 v2) (B754_zero false)) in C.
    assert (Sr : Bsign r = false) by (apply fold_sign; reflexivity).
    assert (Us' : (N.of_nat (length v1) < 2 ^ 65)%N) by (unfold usz in Us; lia).
    destruct (usize_rel _ P Us') as [Fn Rn]. pose proof U_val as UV. pose proof (pos_R _ P) as P1.
    unfold rel in Rn. rewrite (Rabs_pos_eq (INR _)) in Rn by lra. rewrite UV in Rn. apply Rabs_le_inv in Rn.
    destruct tenth_val as [F10 E10].
    destruct (div_lt 53 1024 eq_refl eq_refl (fl_to_f64 r) (f64_of_usize (length v1)) f64_tenth Fn) as [F1 B1]; auto; try lra.
    destruct (Hfin _ F1) as [Fr Br]. rewrite Br, E10 in B1.
    destruct (fold_sound prec emax Hp He (combine v1 v2) (B754_zero false) eq_refl Fr) as (_ & FF & B). fold r in B.
    rewrite diffs_total, combine_length, <- L, Nat.min_id in B by auto. cbn [B2R] in B.
    destruct (combine_split _ (fun v => is_finite v = true) _ _ L FF) as [FF1 FF2]. split; auto. split; auto.
    rewrite pow_add, pow_1. assert (B50 : bpow radix2 (-50) = / 1125899906842624) by reflexivity. rewrite B50. lra.
  Qed.
End Accept.

Lemma sound32 L (v1 v2 : list f32) : usz (length v1) -> @compare_real_vectors f32 (Num_f32 L) _ v1 v2 = Ok true ->
  length v1 = length v2 /\ (0 < length v1)%nat /\ Forall (fun v => is_finite v = true) v1 /\ Forall (fun v => is_finite v = true) v2 /\
  (1 - bpow radix2 (-24)) ^ (length v1 + 1) * total_difference (map B2R v1) (map B2R v2) <= (/ 10 + bpow radix2 (-50)) * INR (length v1).
Proof.
  apply (compare_sound 24 128 eq_refl eq_refl (Num_f32 L)); try reflexivity.
  - intros a F. pose proof (to_f64_finite a F) as Fa. split; auto. exact (proj2 (f64_of_f32_exact a Fa)).
  - exact to_f64_sign.
Qed.
Lemma sound64 L (v1 v2 : list f64) : usz (length v1) -> @compare_real_vectors f64 (Num_f64 L) _ v1 v2 = Ok true ->
  length v1 = length v2 /\ (0 < length v1)%nat /\ Forall (fun v => is_finite v = true) v1 /\ Forall (fun v => is_finite v = true) v2 /\
  (1 - bpow radix2 (-53)) ^ (length v1 + 1) * total_difference (map B2R v1) (map B2R v2) <= (/ 10 + bpow radix2 (-50)) * INR (length v1).
Proof. apply (compare_sound 53 1024 eq_refl eq_refl (Num_f64 L)); auto. Qed.
