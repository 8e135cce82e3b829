(** * IEEE 754 addition, subtraction and multiplication: NaN, infinities, signs of zero, negation *)
From Verif Require Export ParamTree Ieee.
From Flocq Require Import Core IEEE754.BinarySingleNaN.
From Coq Require Import Reals Lra Lia Bool.

Definition not_finite {prec emax} (x : binary_float prec emax) : Prop := is_finite x = false.
Definition nan {prec emax} (x : binary_float prec emax) : Prop := is_nan x = true.

Section Any.
  Context (prec emax : Z) {Hp : Prec_gt_0 prec} {He : Prec_lt_emax prec emax}.
  Notation bf := (binary_float prec emax).
  Notation rnd := (round radix2 (SpecFloat.fexp prec emax) ZnearestE).

  Lemma same_refl (a : bf) : same_number a a.
  Proof. now left. Qed.
  Lemma same_sym (a b : bf) : same_number a b -> same_number b a.
  Proof. intros [->|(s & s' & -> & ->)]; [now left|right; eauto]. Qed.
  Lemma same_trans (a b c : bf) : same_number a b -> same_number b c -> same_number a c.
  Proof. intros [->|(s & s' & -> & ->)]; auto. intros [<-|(t & t' & E & ->)]; right; eauto. Qed.
  Lemma same_real (a b : bf) : is_finite a = true -> is_finite b = true -> B2R a = B2R b -> same_number a b.
  Proof.
    intros Fa Fb E. destruct (Req_dec (B2R a) 0) as [Z|Z].
    - destruct a as [s|s| |s m e h]; try discriminate.
      + destruct b as [t|t| |t m e h]; try discriminate; [right; eauto|].
        simpl in E. symmetry in E. apply eq_0_F2R in E. destruct t; discriminate.
      + simpl in Z. apply eq_0_F2R in Z. destruct s; discriminate.
    - left. apply B2R_inj; auto; apply is_finite_strict_B2R; congruence.
  Qed.
  Lemma same_fin (a b : bf) : same_number a b -> is_finite a = is_finite b.
  Proof. intros [->|(s & s' & -> & ->)]; auto. Qed.
  Lemma same_B2R (a b : bf) : same_number a b -> B2R a = B2R b.
  Proof. intros [->|(s & s' & -> & ->)]; auto. Qed.
  Lemma same_opp (a b : bf) : same_number a b -> same_number (Bopp a) (Bopp b).
  Proof. intros [->|(s & s' & -> & ->)]; [now left|right; simpl; eauto]. Qed.

  Lemma plus_zero_l s (b : bf) : same_number (Bplus mode_NE (B754_zero s) b) b.
  Proof. destruct b as [t|t| |t m e h]; simpl; auto using same_refl. destruct (eqb s t); right; eauto. Qed.
  Lemma plus_zero_r s (b : bf) : same_number (Bplus mode_NE b (B754_zero s)) b.
  Proof. destruct b as [t|t| |t m e h]; simpl; auto using same_refl. destruct (eqb t s); right; eauto. Qed.
  Lemma minus_plus (a b : bf) : Bminus mode_NE a b = Bplus mode_NE a (Bopp b).
  Proof. destruct a, b; reflexivity. Qed.

  Lemma same_plus (a a' b b' : bf) : same_number a a' -> same_number b b' -> same_number (Bplus mode_NE a b) (Bplus mode_NE a' b').
  Proof.
    intros Ha Hb. apply same_trans with (Bplus mode_NE a' b).
    - destruct Ha as [->|(s & s' & -> & ->)]; [apply same_refl|].
      eapply same_trans; [apply plus_zero_l|]. apply same_sym, plus_zero_l.
    - destruct Hb as [->|(s & s' & -> & ->)]; [apply same_refl|].
      eapply same_trans; [apply plus_zero_r|]. apply same_sym, plus_zero_r.
  Qed.
  Lemma same_minus (a a' b b' : bf) : same_number a a' -> same_number b b' -> same_number (Bminus mode_NE a b) (Bminus mode_NE a' b').
  Proof. intros. rewrite !minus_plus. apply same_plus; auto using same_opp. Qed.
  Lemma same_mult (c a a' : bf) : same_number a a' -> same_number (Bmult mode_NE c a) (Bmult mode_NE c a').
  Proof.
    intros [->|(s & s' & -> & ->)]; [apply same_refl|].
    destruct c; simpl; auto using same_refl; right; eauto.
  Qed.
  Lemma same_mult_l (c a a' : bf) : same_number a a' -> same_number (Bmult mode_NE a c) (Bmult mode_NE a' c).
  Proof.
    intros [->|(s & s' & -> & ->)]; [apply same_refl|].
    destruct c; simpl; auto using same_refl; right; eauto.
  Qed.

  Lemma overflow_inf s : binary_overflow prec emax mode_NE s = SpecFloat.S754_infinity s.
  Proof. reflexivity. Qed.
  Lemma inf_B2SF (a : bf) s : B2SF a = SpecFloat.S754_infinity s -> a = B754_infinity s.
  Proof. destruct a; simpl; intros E; try discriminate. congruence. Qed.
  Lemma opp_fin (a : bf) : is_finite (Bopp a) = is_finite a.
  Proof. now destruct a. Qed.
  Lemma opp_sign (a : bf) : is_finite a = true -> Bsign (Bopp a) = negb (Bsign a).
  Proof. now destruct a. Qed.

  Lemma plus_opp (a b : bf) : same_number (Bopp (Bplus mode_NE a b)) (Bplus mode_NE (Bopp a) (Bopp b)).
  Proof.
    destruct (is_finite a) eqn:Fa; [destruct (is_finite b) eqn:Fb|].
    2: { destruct a; try discriminate; destruct b as [| [] | |]; try discriminate; apply same_refl. }
    2: { destruct a as [|[]| |]; try discriminate; destruct b as [|[]| |]; try discriminate; apply same_refl. }
    pose proof (Bplus_correct prec emax Hp He mode_NE a b Fa Fb) as P.
    pose proof (Bplus_correct prec emax Hp He mode_NE (Bopp a) (Bopp b)) as Q.
    rewrite !opp_fin in Q. specialize (Q Fa Fb). rewrite !B2R_Bopp in Q. simpl round_mode in P, Q.
    replace (- B2R a + - B2R b)%R with (- (B2R a + B2R b))%R in Q by ring.
    rewrite round_NE_opp, Rabs_Ropp in Q.
    destruct (Rlt_bool (Rabs (rnd (B2R a + B2R b))) (bpow radix2 emax)).
    - destruct P as (P1 & P2 & _), Q as (Q1 & Q2 & _). apply same_real; [now rewrite opp_fin|auto|].
      rewrite B2R_Bopp, P1, Q1. reflexivity.
    - destruct P as [P _], Q as [Q _]. rewrite overflow_inf in P, Q.
      apply inf_B2SF in P, Q. rewrite P, Q, opp_sign by auto. apply same_refl.
  Qed.
  Lemma mult_opp_r (c a : bf) : Bmult mode_NE c (Bopp a) = Bopp (Bmult mode_NE c a) \/ same_number (Bopp (Bmult mode_NE c a)) (Bmult mode_NE c (Bopp a)).
  Proof.
    destruct (is_finite c && is_finite a) eqn:F.
    2: { left. destruct c as [[]|[]| |[]]; try reflexivity; destruct a as [[]|[]| |[]]; try reflexivity; discriminate. }
    right. apply andb_true_iff in F. destruct F as [Fc Fa].
    pose proof (Bmult_correct prec emax Hp He mode_NE c a) as P.
    pose proof (Bmult_correct prec emax Hp He mode_NE c (Bopp a)) as Q.
    rewrite !opp_fin, !B2R_Bopp in Q. simpl round_mode in P, Q. rewrite Fc, Fa in P, Q.
    replace (B2R c * - B2R a)%R with (- (B2R c * B2R a))%R in Q by ring.
    rewrite round_NE_opp, Rabs_Ropp in Q.
    destruct (Rlt_bool (Rabs (rnd (B2R c * B2R a))) (bpow radix2 emax)).
    - destruct P as (P1 & P2 & _), Q as (Q1 & Q2 & _). apply same_real; [now rewrite opp_fin|auto|].
      rewrite B2R_Bopp, P1, Q1. reflexivity.
    - rewrite overflow_inf in P, Q. apply inf_B2SF in P, Q. rewrite P, Q, opp_sign by auto.
      left. simpl. f_equal. destruct (Bsign c), (Bsign a); reflexivity.
  Qed.
  Lemma mult_opp (c a : bf) : same_number (Bopp (Bmult mode_NE c a)) (Bmult mode_NE c (Bopp a)).
  Proof. destruct (mult_opp_r c a) as [<-|H]; auto using same_refl. Qed.
  Lemma mult_comm (c a : bf) : Bmult mode_NE c a = Bmult mode_NE a c.
  Proof.
    destruct c as [s|s| |s m e h], a as [t|t| |t n f k]; simpl; rewrite ?(xorb_comm s t); auto.
    apply B2SF_inj. rewrite !B2SF_SF2B. rewrite (Pos.mul_comm m n), (Z.add_comm e f), (xorb_comm s t). reflexivity.
  Qed.

  Lemma mirror_plus (a a' b b' : bf) : mirror a a' -> mirror b b' -> mirror (Bplus mode_NE a b) (Bplus mode_NE a' b').
  Proof. unfold mirror. intros. eapply same_trans; [apply plus_opp|]. now apply same_plus. Qed.
  Lemma mirror_opp (a a' : bf) : mirror a a' -> mirror (Bopp a) (Bopp a').
  Proof. unfold mirror. apply same_opp. Qed.
  Lemma mirror_minus (a a' b b' : bf) : mirror a a' -> mirror b b' -> mirror (Bminus mode_NE a b) (Bminus mode_NE a' b').
  Proof. intros. rewrite !minus_plus. apply mirror_plus; auto using mirror_opp. Qed.
  Lemma mirror_mult_r (c a a' : bf) : mirror a a' -> mirror (Bmult mode_NE c a) (Bmult mode_NE c a').
  Proof. unfold mirror. intros. eapply same_trans; [apply mult_opp|]. now apply same_mult. Qed.
  Lemma mirror_mult_l (c a a' : bf) : mirror a a' -> mirror (Bmult mode_NE a c) (Bmult mode_NE a' c).
  Proof. intros. rewrite (mult_comm a), (mult_comm a'). now apply mirror_mult_r. Qed.

  Lemma plus_fin (a b : bf) : not_finite a \/ not_finite b -> not_finite (Bplus mode_NE a b).
  Proof. unfold not_finite. intros [H|H]; destruct a as [|[]| |], b as [|[]| |]; try discriminate; reflexivity. Qed.
  Lemma mult_fin (a b : bf) : not_finite a \/ not_finite b -> not_finite (Bmult mode_NE a b).
  Proof. unfold not_finite. intros [H|H]; destruct a, b; try discriminate; reflexivity. Qed.
  Lemma plus_nan (a b : bf) : nan a \/ nan b -> nan (Bplus mode_NE a b).
  Proof. unfold nan. intros [H|H]; destruct a as [|[]| |], b as [|[]| |]; try discriminate; reflexivity. Qed.
  Lemma mult_nan (a b : bf) : nan a \/ nan b -> nan (Bmult mode_NE a b).
  Proof. unfold nan. intros [H|H]; destruct a, b; try discriminate; reflexivity. Qed.
End Any.

Lemma absorbing_f32_fin L : @absorbing f32 (Num_f32 L) not_finite.
Proof.
  constructor; cbn; intros.
  - now apply (plus_fin 24 128).
  - change (f32_sub a b) with (@Bminus 24 128 eq_refl eq_refl mode_NE a b). rewrite minus_plus. apply (plus_fin 24 128). unfold not_finite. now rewrite opp_fin.
  - now apply (mult_fin 24 128).
  - unfold not_finite. now rewrite opp_fin.
Qed.
Lemma absorbing_f64_fin L : @absorbing f64 (Num_f64 L) not_finite.
Proof.
  constructor; cbn; intros.
  - now apply (plus_fin 53 1024).
  - change (f64_sub a b) with (@Bminus 53 1024 eq_refl eq_refl mode_NE a b). rewrite minus_plus. apply (plus_fin 53 1024). unfold not_finite. now rewrite opp_fin.
  - now apply (mult_fin 53 1024).
  - unfold not_finite. now rewrite opp_fin.
Qed.
Lemma opp_nan {p e} (a : binary_float p e) : is_nan (Bopp a) = is_nan a.
Proof. now destruct a. Qed.
Lemma absorbing_f32_nan L : @absorbing f32 (Num_f32 L) nan.
Proof.
  constructor; cbn; intros.
  - now apply (plus_nan 24 128).
  - change (f32_sub a b) with (@Bminus 24 128 eq_refl eq_refl mode_NE a b). rewrite minus_plus. apply (plus_nan 24 128). unfold nan. now rewrite opp_nan.
  - now apply (mult_nan 24 128).
  - unfold nan. now rewrite opp_nan.
Qed.
Lemma absorbing_f64_nan L : @absorbing f64 (Num_f64 L) nan.
Proof.
  constructor; cbn; intros.
  - now apply (plus_nan 53 1024).
  - change (f64_sub a b) with (@Bminus 53 1024 eq_refl eq_refl mode_NE a b). rewrite minus_plus. apply (plus_nan 53 1024). unfold nan. now rewrite opp_nan.
  - now apply (mult_nan 53 1024).
  - unfold nan. now rewrite opp_nan.
Qed.
