(** * The test helpers: what passes them, and what a pass means *)
From Verif Require Import Lemmas ButterfliesProof FloatProof FloatTree IeeeProof PropsFloatProof DHTTheory.
From Verif Require Export TestSpec ApiProof.
From Coq Require Import Reals Lra Lia ZArith NArith Psatz.

Section Walk.
  Context {T : Type} {NT : Num T} {FT : FloatNum T} (signal : nat -> list T).
  Notation compare := (@compare_real_vectors T NT FT).

  Lemma naive_transforms n : transforms (dht_naive n) (naive_fun (T := T) n).
  Proof. exact (proj1 (transforms_ok _ _) (proj1 (naive_ok n))). Qed.
  Lemma naive_len n : dht_len (@dht_naive T NT n) = n.
  Proof. unfold dht_naive. cbn [boilerplate_dht_oop dht_len]. apply ButterfliesProof.naive_twiddles_length. Qed.

  Lemma inplace_one (d : Dht T) f x scr : transforms d f -> 0 < dht_len d -> length x = dht_len d ->
    dht_inplace_scratch d <= length scr ->
    exists scr', dht_process_with_scratch d x scr = Ok (f x, scr') /\ length scr' = length scr.
  Proof.
    intros Tr P Lx S. destruct (tr_inplace _ _ Tr [x] scr P) as (s & E & Ls & _); auto.
    { split; [discriminate|]. repeat constructor. auto. }
    cbn [concat map] in E. rewrite !app_nil_r in E. eauto.
  Qed.
  Lemma oop_one (d : Dht T) f x out scr : transforms d f -> 0 < dht_len d -> length x = dht_len d -> length out = dht_len d ->
    dht_oop_scratch d <= length scr ->
    exists x' scr', dht_process_oop d x out scr = Ok (x', f x, scr') /\ length x' = length x /\ length scr' = length scr.
  Proof.
    intros Tr P Lx Lo S. destruct (tr_oop _ _ Tr [x] out scr P) as (i & s & E & Li & Ls & _); auto.
    { split; [discriminate|]. repeat constructor. auto. }
    { cbn [concat]. rewrite app_nil_r. lia. }
    cbn [concat map] in E, Li. rewrite !app_nil_r in *. eauto 6.
  Qed.
  Lemma process_one (d : Dht T) f x : transforms d f -> 0 < dht_len d -> length x = dht_len d -> dht_process d x = Ok (f x).
  Proof.
    intros Tr P Lx. unfold dht_process.
    destruct (inplace_one d f x (repeat nzero (dht_inplace_scratch d))) as (s & E & _); auto; [rewrite repeat_length; lia|].
    now rewrite E.
  Qed.

  Lemma check_passes (d : Dht T) f n : 0 < n -> dht_len d = n -> transforms d f -> length (signal n) = n ->
    compare (naive_fun n (signal n)) (f (signal n)) = Ok true -> check_dht_algorithm signal d n = Ok tt.
  Proof.
    intros P Ld Tr Ls C. pose proof (naive_transforms n) as Tn. pose proof (naive_len n) as Ln.
    set (x := signal n) in *. assert (A : assert_close (naive_fun n x) (f x) = Ok tt) by (unfold assert_close; now rewrite C).
    assert (Lf : length (f x) = n) by (rewrite <- Ld; apply (tr_len _ _ Tr); congruence).
    assert (Lg : length (naive_fun n x) = n) by (rewrite <- Ln at 2; apply (tr_len _ _ Tn); congruence).
    unfold check_dht_algorithm. rewrite Ld, Nat.eqb_refl. cbn [rassert bind]. cbv zeta. rewrite Nat.mul_1_r. fold x.
    destruct (inplace_one (dht_naive n) (naive_fun n) x (repeat nzero (dht_inplace_scratch (dht_naive n)))) as (s1 & E1 & _);
      auto; try lia; [rewrite repeat_length; lia|].
    rewrite E1. cbn [bind]. rewrite (process_one d f x Tr) by lia. cbn [bind]. rewrite A. cbn [bind].
    destruct (inplace_one d f x (repeat nzero (dht_inplace_scratch d))) as (s2 & E2 & L2); auto; try lia; [rewrite repeat_length; lia|].
    rewrite E2. cbn [bind]. rewrite A. cbn [bind]. rewrite repeat_length in L2.
    match goal with |- bind ?m _ = _ => assert (E3 : m = Ok tt) end.
    { destruct (0 <? length s2); [|reflexivity]. unfold copy_from_slice. rewrite Lf, Ls, Nat.eqb_refl. cbn [bind].
      destruct (inplace_one d f x (map (fun _ => fl_hundred) s2)) as (s3 & E3 & _); auto; try lia; [rewrite map_length; lia|].
      rewrite E3. exact A. }
    rewrite E3. cbn [bind].
    destruct (oop_one d f x (naive_fun n x) (repeat nzero (dht_oop_scratch d))) as (i & s4 & E4 & Li & L4); auto; try lia; [rewrite repeat_length; lia|].
    rewrite E4. cbn [bind]. rewrite A. cbn [bind]. rewrite repeat_length in L4.
    destruct (0 <? length s4); [|reflexivity]. unfold copy_from_slice. rewrite Li, Nat.eqb_refl. cbn [bind].
    destruct (oop_one d f x (f x) (map (fun _ => fl_hundred) s4)) as (i5 & s5 & E5 & _); auto; try lia; [rewrite map_length; lia|].
    rewrite E5. exact A.
  Qed.

  (** what a pass says about the instance *)
  Lemma check_inv (d : Dht T) n : 0 < n -> length (signal n) = n -> check_dht_algorithm signal d n = Ok tt ->
    dht_len d = n /\ exists y, dht_process d (signal n) = Ok y /\ compare (naive_fun n (signal n)) y = Ok true.
  Proof.
    intros P Ls. pose proof (naive_transforms n) as Tn. pose proof (naive_len n) as Ln. unfold check_dht_algorithm.
    destruct (Nat.eqb_spec (dht_len d) n) as [Ld|]; [|discriminate]. cbn [rassert bind]. cbv zeta. rewrite Nat.mul_1_r.
    destruct (inplace_one (dht_naive n) (naive_fun n) (signal n) (repeat nzero (dht_inplace_scratch (dht_naive n)))) as (s1 & E1 & _);
      auto; try lia; [rewrite repeat_length; lia|].
    rewrite E1. cbn [bind]. destruct (dht_process d (signal n)) as [y| | |]; try discriminate. cbn [bind]. intros C.
    split; auto. exists y. split; auto.
    unfold assert_close at 1 in C. destruct (compare (naive_fun n (signal n)) y) as [[|]| | |]; try discriminate. reflexivity.
  Qed.
End Walk.

Local Open Scope R_scope.
Lemma f64_of_f32_exact (v : f32) : is_finite v = true -> is_finite (f64_of_f32 v) = true /\ B2R (f64_of_f32 v) = B2R v.
Proof.
  intros Fv. pose proof (generic_format_B2R 24 128 v) as G. pose proof (abs_B2R_lt_emax 24 128 v) as M.
  destruct v as [s| | |s m e H]; try discriminate; [split; reflexivity|]. cbn [f64_of_f32].
  set (x := B2R (B754_finite s m e H)) in *.
  assert (Ex : F2R (Float radix2 (cond_Zopp s (Zpos m)) e) = x) by reflexivity.
  assert (G' : generic_format radix2 (SpecFloat.fexp 53 1024) x).
  { change (SpecFloat.fexp 24 128) with (FLT_exp (-149) 24) in G. apply FLT_format_generic in G; [|reflexivity].
    destruct G as [f E1 E2 E3]. apply (generic_format_FLT radix2 (-1074) 53). exists f; auto.
    - apply (Z.lt_trans _ _ _ E2). reflexivity.
    - lia. }
  pose proof (binary_normalize_correct 53 1024 eq_refl eq_refl mode_NE (cond_Zopp s (Zpos m)) e s) as C. cbv zeta in C.
  rewrite Ex in C. rewrite round_generic in C by auto with typeclass_instances.
  rewrite Rlt_bool_true in C; [tauto|]. apply (Rlt_trans _ _ _ M). apply bpow_lt. lia.
Qed.
Lemma tenth_val : is_finite f64_tenth = true /\ B2R f64_tenth = 3602879701896397 / 36028797018963968.
Proof.
  set (v := f64_tenth). assert (E : B2SF v = B2SF v) by reflexivity.
  let t := eval vm_compute in (B2SF v) in change (B2SF v = t) in E.
  destruct v as [| | |s' m e H]; try discriminate. simpl in E. injection E as -> -> ->. split; [reflexivity|].
  unfold B2R, F2R. simpl. lra.
Qed.

(** 2^-24 and a little more: bounds the roundings of both types *)
Definition weight : R := / 16777216 + / 35184372088832.
Section Sum.
  Context {T : Type} (F : fmt T) (N : Num T) (RN : rounded F N) (FT : FloatNum T).
  Hypothesis Habs : forall v, ffin F v -> ffin F (fl_abs v) /\ fval F (fl_abs v) = Rabs (fval F v).
  Hypothesis Hto : forall v, ffin F v -> is_finite (fl_to_f64 v) = true /\ B2R (fl_to_f64 v) = fval F v.
  Hypothesis Hu : fu F <= weight.
  Hypothesis Ht : ftau F <= weight.
  Hypothesis Hr : frho F <= weight.
  Hypothesis Hhi : bpow radix2 100 <= fhi F.
  Notation u := (fu F).
  Let u0 : 0 <= u := r_u _ _ RN.
  Let step (error : T) (p : T * T) : T := let '(a, b) := p in nadd error (fl_abs (nsub a b)).

  Lemma sum_close e : 0 <= e -> forall l j acc, ffin F acc -> 0 <= fval F acc <= INR j * e * (1 + u) ^ (j + 1) ->
    INR (j + length l) * e * (1 + u) ^ (j + length l + 1) <= 1000000 ->
    Forall (fun p => ffin F (fst p) /\ ffin F (snd p) /\ Rabs (fval F (fst p) - fval F (snd p)) <= e) l ->
    let r := fold_left step l acc in
    ffin F r /\ 0 <= fval F r <= INR (j + length l) * e * (1 + u) ^ (j + length l + 1).
  Proof.
    intros He. rewrite b100 in Hhi. induction l as [|[a b] l IH]; intros j acc Fa Ba Hb Hl.
    { cbn. rewrite Nat.add_0_r. auto. }
    cbn [length] in Hb. replace (j + S (length l))%nat with (S j + length l)%nat in * by lia.
    cbn [fold_left length]. replace (j + S (length l))%nat with (S j + length l)%nat by lia.
    apply Forall_cons_iff in Hl as [(F1 & F2 & D) Hl]. cbn [fst snd] in *.
    assert (Q : 1 <= (1 + u) ^ (j + 1)) by (apply pow_R1_Rle; lra).
    assert (Mono : INR (S j) * e * (1 + u) ^ (S j + 1) <= 1000000).
    { eapply Rle_trans; [|exact Hb]. apply Rmult_le_compat.
      - apply Rmult_le_pos; [apply pos_INR|auto].
      - apply pow_le. lra.
      - apply Rmult_le_compat_r; auto. apply le_INR. lia.
      - apply Rle_pow; [lra|lia]. }
    assert (u1 : u <= 1 / 100) by (unfold weight in Hu; lra).
    rewrite S_INR in Mono. replace (S j + 1)%nat with (S (j + 1)) in Mono by lia. cbn [pow] in Mono.
    set (q := (1 + u) ^ (j + 1)) in *. pose proof (pos_INR j) as Pj.
    assert (qe : 0 <= q * e) by (apply Rmult_le_pos; lra).
    assert (je : 0 <= INR j * e) by (apply Rmult_le_pos; lra).
    assert (jqe : 0 <= INR j * e * q) by (apply Rmult_le_pos; lra).
    assert (e_qe : e <= q * e) by nra.
    assert (Mo : INR j * e * q + q * e <= 1000000).
    { assert (0 <= u * (INR j * e * q + q * e)) by (apply Rmult_le_pos; lra). lra. }
    destruct (r_sub _ _ RN a b F1 F2) as [Fs Es]; [lra|].
    destruct (Habs _ Fs) as [Fv Ev].
    assert (Dv : fval F (fl_abs (nsub a b)) <= (1 + u) * e).
    { rewrite Ev. replace (fval F (nsub a b)) with ((fval F (nsub a b) - (fval F a - fval F b)) + (fval F a - fval F b)) by ring.
      eapply Rle_trans; [apply Rabs_triang|]. assert (u * Rabs (fval F a - fval F b) <= u * e) by (apply Rmult_le_compat_l; auto). lra. }
    assert (Pv : 0 <= fval F (fl_abs (nsub a b))) by (rewrite Ev; apply Rabs_pos).
    set (v := fl_abs (nsub a b)) in *.
    assert (q1 : 1 + u <= q).
    { unfold q. rewrite <- (pow_1 (1 + u)) at 1. apply Rle_pow; [lra|lia]. }
    assert (Ps : fval F acc + fval F v <= INR j * e * q + q * e).
    { assert ((1 + u) * e <= q * e) by (apply Rmult_le_compat_r; auto). lra. }
    destruct (r_add _ _ RN acc v Fa Fv) as [Fw Ew]; [rewrite Rabs_pos_eq by lra; lra|].
    rewrite (Rabs_pos_eq (fval F acc + fval F v)) in Ew by lra. apply Rabs_le_inv in Ew.
    apply (IH (S j) (nadd acc v)); auto.
    rewrite S_INR. replace (S j + 1)%nat with (S (j + 1)) by lia. cbn [pow]. fold q.
    assert (u * (fval F acc + fval F v) <= u * (INR j * e * q + q * e)) by (apply Rmult_le_compat_l; auto).
    assert (u * (fval F acc + fval F v) <= 1 * (fval F acc + fval F v)) by (apply Rmult_le_compat_r; lra).
    split; lra.
  Qed.

  Lemma grows n : INR (n + 1) * weight <= / 200 -> (1 + u) ^ (n + 1) <= 102 / 100.
  Proof.
    intros H. eapply Rle_trans; [apply pow_exp; auto|]. assert (S : 0 <= INR (n + 1) * u) by (apply Rmult_le_pos; auto using pos_INR).
    assert (S' : INR (n + 1) * u <= / 200) by (eapply Rle_trans; [|exact H]; apply Rmult_le_compat_l; auto using pos_INR).
    pose proof (exp_small (INR (n + 1) * u)). lra.
  Qed.

  Lemma compare_close v1 v2 e : (0 < length v1)%nat -> length v2 = length v1 ->
    (forall k, (k < length v1)%nat -> ffin F (nth k v1 nzero) /\ ffin F (nth k v2 nzero) /\
       Rabs (fval F (nth k v1 nzero) - fval F (nth k v2 nzero)) <= e) ->
    e <= 9 / 100 -> INR (length v1 + 1) * weight <= / 200 -> compare_real_vectors v1 v2 = Ok true.
  Proof.
    intros P L2 H He Hn. set (n := length v1) in *. unfold compare_real_vectors. rewrite L2. fold n. rewrite Nat.eqb_refl. cbn [rassert bind]. cbv zeta.
    assert (e0 : 0 <= e). { destruct (H 0%nat P) as (_ & _ & D). pose proof (Rabs_pos (fval F (nth 0 v1 nzero) - fval F (nth 0 v2 nzero))). lra. }
    assert (Lc : length (combine v1 v2) = n) by (rewrite combine_length; lia).
    pose proof (grows n Hn) as G. pose proof (pos_R n P) as N1.
    assert (Nb : INR n <= 100000) by (rewrite plus_INR in Hn; simpl (INR 1) in Hn; unfold weight in Hn; lra).
    assert (B : INR n * e * (1 + u) ^ (n + 1) <= 918 / 10000 * INR n).
    { assert (A : INR n * e <= INR n * (9 / 100)) by (apply Rmult_le_compat_l; lra).
      apply Rle_trans with (INR n * (9 / 100) * (102 / 100)); [|lra]. apply Rmult_le_compat; auto; [|apply pow_le; lra]. apply Rmult_le_pos; lra. }
    destruct (sum_close e e0 (combine v1 v2) 0 nzero) as [Fr Br].
    - apply (r_zero _ _ RN).
    - destruct (r_zero _ _ RN) as [_ ->]. simpl. lra.
    - rewrite Lc, Nat.add_0_l. lra.
    - apply Forall_forall. intros p Hp. apply (In_nth _ _ (nzero, nzero)) in Hp as (k & Hk & <-). rewrite Lc in Hk.
      rewrite combine_nth by auto. cbn [fst snd]. now apply H.
    - fold step. set (r := fold_left step (combine v1 v2) nzero) in *. rewrite Lc, Nat.add_0_l in Br. f_equal.
      destruct (Hto _ Fr) as [Fq Eq]. assert (Nu : (N.of_nat n < 2 ^ 65)%N).
      { assert (Z : (Z.of_nat n <= 100000)%Z) by (apply le_IZR; now rewrite <- INR_IZR_INZ). change (2 ^ 65)%N with 36893488147419103232%N. lia. }
      destruct (usize_rel n P Nu) as [Fn Rn]. pose proof U_val as UV.
      unfold rel in Rn. rewrite (Rabs_pos_eq (INR n)) in Rn by lra. rewrite UV in Rn. apply Rabs_le_inv in Rn.
      assert (D0 : 0 < B2R (f64_of_usize n)) by lra.
      assert (Q : 0 <= B2R (fl_to_f64 r) / B2R (f64_of_usize n) <= 95 / 1000).
      { rewrite Eq. split; [apply Rmult_le_pos; [lra|]; left; now apply Rinv_0_lt_compat|].
        apply (Rmult_le_reg_r (B2R (f64_of_usize n))); auto. unfold Rdiv at 1. rewrite Rmult_assoc, Rinv_l by lra. lra. }
      destruct (div_ok 53 1024 eq_refl eq_refl (fl_to_f64 r) (f64_of_usize n) Fq) as [Fd Ed]; [lra| |].
      + pose proof hi_64. rewrite b100 in *. rewrite Rabs_pos_eq by lra. simpl. lra.
      + fold (f64_div (fl_to_f64 r) (f64_of_usize n)) in *. destruct tenth_val as [F10 E10].
        rewrite Bltb_correct by auto. rewrite E10. apply Rlt_bool_true.
        assert (Ed' : Rabs (B2R (f64_div (fl_to_f64 r) (f64_of_usize n)) - B2R (fl_to_f64 r) / B2R (f64_of_usize n)) <= / 9007199254740992 * 1).
        { eapply Rle_trans; [exact Ed|]. apply Rmult_le_compat; [apply bpow_ge_0| |right; exact UV|].
          - eapply Rle_trans; [apply Rabs_pos|apply Rmax_l].
          - apply Rmax_lub; [rewrite Rabs_pos_eq; lra|]. change 1 with (bpow radix2 0). apply bpow_le. lia. }
        apply Rabs_le_inv in Ed'. lra.
  Qed.
End Sum.
