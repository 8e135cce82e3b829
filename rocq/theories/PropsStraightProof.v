(** * Cases of C65 and C66 *)
From Verif Require Export Straight.
From Verif Require Import IeeeSpec IeeeProof PropsParamProof FloatTree.
From Flocq Require Import Core IEEE754.BinarySingleNaN.
From Coq Require Import Reals Lra Lia Bool.

Definition fly8 : list expr :=
  let s a b := Plus (Var a) (Var b) in
  let d a b := Minus (Var a) (Var b) in
  let c := Plus (Cos false 1 8) (Sin false 1 8) in
  [ Plus (Plus (s 0 4) (s 2 6)) (Plus (s 1 5) (s 3 7)); Plus (Plus (d 0 4) (d 2 6)) (Times (d 1 5) c);
    Plus (Minus (s 0 4) (s 2 6)) (Minus (s 1 5) (s 3 7)); Plus (Minus (d 0 4) (d 2 6)) (Times (d 3 7) c);
    Minus (Plus (s 0 4) (s 2 6)) (Plus (s 1 5) (s 3 7)); Minus (Plus (d 0 4) (d 2 6)) (Times (d 1 5) c);
    Minus (Minus (s 0 4) (s 2 6)) (Minus (s 1 5) (s 3 7)); Minus (Minus (d 0 4) (d 2 6)) (Times (d 3 7) c) ].
Lemma fly8_program m : program m Fly8 fly8.
Proof.
  eapply (program_read_proof m Fly8 (@butterfly8 expr Num_expr) fly8 (repeat Zero 8) _ [] _).
  - exact Logic.I.
  - reflexivity.
  - simpl. lia.
  - reflexivity.
  - simpl. lia.
  - vm_compute. reflexivity.
Qed.

Definition f32_of_Z (z : Z) (e : Z) : f32 := binary_normalize 24 128 eq_refl eq_refl mode_NE z e false.
Definition count8 (k : Z) : list f32 := map (fun z => f32_of_Z z k) [1; 2; 3; 4; 5; 6; 7; 8]%Z.

Lemma count_shifted : Forall2 (shifted 100) (count8 0) (count8 100).
Proof. unfold count8. simpl map. repeat constructor; cbv; lra. Qed.

(** evaluate every sum of [count8] and compare *)
Lemma B2R_SF (a : f32) v : B2SF a = v -> B2R a = SF2R radix2 v.
Proof. intros <-. symmetry. apply SF2R_B2SF. Qed.
Ltac value := match goal with |- context [B2R (eval ?x ?e)] =>
  let v := eval vm_compute in (B2SF (eval x e)) in
  rewrite (B2R_SF (eval x e) v) by (vm_compute; reflexivity) end.
Ltac values := repeat value; cbv -[Rabs Rle IZR Rplus Rminus Rmult Rinv Ropp]; apply Rabs_le; lra.

Section Calm.
  Variable L : libm.
  Hypothesis A : accurate L.
  Local Instance NL : Num f32 := Num_f32 L.
  Local Open Scope R_scope.
  Let c := eval (count8 0) (Plus (Cos false 1 8) (Sin false 1 8)).

  Lemma c_range : is_finite c = true /\ 1 <= B2R c <= 2.
  Proof.
    pose proof (ok32 L A) as O. unfold c, NL. cbn [eval].
    assert (U : usz 8) by (unfold usz; lia).
    destruct (r_cos _ _ O false 1 8 ltac:(lia) ltac:(lia) U) as [F1 E1].
    destruct (r_sin _ _ O false 1 8 ltac:(lia) ltac:(lia) U) as [F2 E2].
    cbn [ffin fval F32 ftau] in *.
    replace (1 * 2 * PI / INR 8 * INR 1) with (PI / 4) in E1, E2 by (simpl; field).
    rewrite cos_PI4 in E1. rewrite sin_PI4 in E2.
    set (a := ncos false 1 8) in *. set (b := nsin false 1 8) in *.
    assert (S1 : 14 / 10 <= sqrt 2) by (rewrite <- (sqrt_Rsqr (14 / 10)) by lra; apply sqrt_le_1; unfold Rsqr; lra).
    assert (S2 : sqrt 2 <= 15 / 10) by (rewrite <- (sqrt_Rsqr (15 / 10)) by lra; apply sqrt_le_1; unfold Rsqr; lra).
    assert (R : 1 / sqrt 2 = sqrt 2 / 2) by (assert (sqrt 2 * sqrt 2 = 2) by (apply sqrt_sqrt; lra); apply Rmult_eq_reg_r with (sqrt 2); [|lra]; unfold Rdiv; rewrite Rmult_assoc, Rinv_l by lra; lra).
    rewrite R in E1, E2.
    assert (T : bpow radix2 (-24) + bpow radix2 (-45) <= / 1000) by (simpl; lra).
    apply Rabs_le_inv in E1, E2.
    destruct (r_add _ _ O a b F1 F2) as [F3 E3]; cbn [ffin fval F32 fhi fu] in *.
    - apply Rle_trans with 2; [apply Rabs_le; lra|]. change 2 with (bpow radix2 1). apply bpow_le. lia.
    - split; [exact F3|]. assert (V : bpow radix2 (-24) <= / 1000) by (simpl; lra).
      rewrite (Rabs_pos_eq (B2R a + B2R b)) in E3 by lra. apply Rabs_le_inv in E3.
      assert (bpow radix2 (-24) * (B2R a + B2R b) <= / 1000 * 2) by (apply Rmult_le_compat; try lra; apply bpow_ge_0).
      change NL with (Num_f32 L). fold a b. lra.
  Qed.
  Lemma prod_range (a : f32) : is_finite a = true -> 1 <= Rabs (B2R a) <= 100 ->
    (bpow radix2 (-20) <= Rabs (B2R a * B2R c) <= bpow radix2 20) /\
    is_finite (f32_mul a c) = true /\ Rabs (B2R (f32_mul a c)) <= 300.
  Proof.
    intros Fa Ra. destruct c_range as [Fc Rc]. pose proof (ok32 L A) as O.
    assert (P : 1 <= Rabs (B2R a * B2R c) <= 200) by (rewrite Rabs_mult, (Rabs_pos_eq (B2R c)) by lra; nra).
    split; [simpl; lra|].
    destruct (mult_ok 24 128 eq_refl eq_refl a c Fa Fc) as [F E].
    - apply Rle_trans with 200; [lra|]. apply Rle_trans with (bpow radix2 8); [simpl; lra|]. apply bpow_le. lia.
    - split; [exact F|]. rewrite Rmax_left in E.
      + assert (V : bpow radix2 (-24) <= / 1000) by (simpl; lra).
        change (- (24))%Z with (-24)%Z in E. assert (bpow radix2 (-24) * Rabs (B2R a * B2R c) <= / 1000 * 200) by (apply Rmult_le_compat; try lra; apply bpow_ge_0).
        change (Bmult mode_NE a c) with (f32_mul a c) in E. apply Rabs_le_inv in E. destruct P as [_ P]. apply Rabs_le_inv in P. apply Rabs_le. lra.
      + apply Rle_trans with 1; [|lra]. change 1 with (bpow radix2 0). apply bpow_le. lia.
  Qed.

  Lemma fly8_calm : Forall (calm (bpow radix2 (-20)) (bpow radix2 20) (count8 0)) fly8.
  Proof.
    destruct c_range as [Fc Rc].
    destruct (prod_range (f32_of_Z (-4) 0)) as (P1 & P2 & P3); [reflexivity|replace (B2R (f32_of_Z (-4) 0)) with (-4) by (cbv -[IZR Rmult Rinv]; lra); rewrite Rabs_left by lra; lra|].
    assert (D1 : eval (count8 0) (Minus (Var 1) (Var 5)) = f32_of_Z (-4) 0) by (apply B2SF_inj; vm_compute; reflexivity).
    assert (D2 : eval (count8 0) (Minus (Var 3) (Var 7)) = f32_of_Z (-4) 0) by (apply B2SF_inj; vm_compute; reflexivity).
    assert (E1 : eval (count8 0) (Times (Minus (Var 1) (Var 5)) (Plus (Cos false 1 8) (Sin false 1 8))) = f32_mul (f32_of_Z (-4) 0) c) by (rewrite <- D1; reflexivity).
    assert (E2 : eval (count8 0) (Times (Minus (Var 3) (Var 7)) (Plus (Cos false 1 8) (Sin false 1 8))) = f32_mul (f32_of_Z (-4) 0) c) by (rewrite <- D2; reflexivity).
    set (p := f32_mul (f32_of_Z (-4) 0) c) in *.
    assert (Q : forall u : f32, Rabs (B2R u) <= 100 -> Rabs (B2R u + B2R p) <= bpow radix2 20 /\ Rabs (B2R u - B2R p) <= bpow radix2 20).
    { intros u Hu. apply Rabs_le_inv in Hu, P3. simpl bpow. split; apply Rabs_le; lra. }
    assert (W : forall e, eval (count8 0) e = f32_of_Z (-4) 0 ->
      is_finite (eval (count8 0) e) = true /\ is_finite c = true /\
      (B2R (eval (count8 0) e) * B2R c = 0 \/ bpow radix2 (-20) <= Rabs (B2R (eval (count8 0) e) * B2R c) <= bpow radix2 20)).
    { intros e ->. split; [reflexivity|]. split; [exact Fc|]. right. exact P1. }
    assert (X1 : calm (bpow radix2 (-20)) (bpow radix2 20) (count8 0) (Times (Minus (Var 1) (Var 5)) (Plus (Cos false 1 8) (Sin false 1 8)))).
    { cbn [calm fixed]. split; [right; repeat split; values|]. exact (W _ D1). }
    assert (X2 : calm (bpow radix2 (-20)) (bpow radix2 20) (count8 0) (Times (Minus (Var 3) (Var 7)) (Plus (Cos false 1 8) (Sin false 1 8)))).
    { cbn [calm fixed]. split; [right; repeat split; values|]. exact (W _ D2). }
    remember (Times (Minus (Var 1) (Var 5)) (Plus (Cos false 1 8) (Sin false 1 8))) as e1 eqn:Y1.
    remember (Times (Minus (Var 3) (Var 7)) (Plus (Cos false 1 8) (Sin false 1 8))) as e2 eqn:Y2.
    assert (Q1 := Q). assert (Q2 := Q). rewrite <- E1 in Q1. rewrite <- E2 in Q2. clear Q.
    unfold fly8. rewrite <- Y1, <- Y2. clear Y1 Y2.
    repeat apply Forall_cons; [..|apply Forall_nil]; cbn [calm]; repeat match goal with |- _ /\ _ => split | |- True => exact Logic.I end; try assumption.
    all: first [ apply (fun u H => proj1 (Q1 u H)) | apply (fun u H => proj2 (Q1 u H)) | apply (fun u H => proj1 (Q2 u H)) | apply (fun u H => proj2 (Q2 u H)) | idtac ].
    all: values.
  Qed.
End Calm.

Lemma fly8_case_proof L m : accurate L -> exists f, transforms (@butterfly8 f32 (Num_f32 L)) f /\
  @build f32 (Num_f32 L) m Fly8 = Ok (@butterfly8 f32 (Num_f32 L)) /\ program m Fly8 fly8 /\
  Forall2 (shifted 100) (count8 0) (count8 100) /\
  Forall (@calm 24 128 (Num_f32 L) (bpow radix2 (-20)) (bpow radix2 20) (count8 0)) fly8.
Proof.
  intros A. destruct (PropsParamProof.tree_transforms f32 (Num_f32 L) m Fly8 butterfly8 Logic.I eq_refl) as [f F].
  exists f. split; [exact F|]. split; [reflexivity|]. split; [apply fly8_program|]. split; [exact count_shifted|]. now apply fly8_calm.
Qed.
Lemma C65_case_proof m : (exists d, @build expr Num_expr m odd_tree = Ok d /\ dht_len d = 39) /\ in_range odd_tree /\ program m Fly8 fly8.
Proof.
  split; [|split; [exact odd_range|apply fly8_program]].
  destruct (odd_build expr Num_expr m) as (d & f & B & _ & K). exists d. exact (conj B K).
Qed.
