(** * The test functions built on check_dht_algorithm pass on every signal *)
From Verif Require Import Lemmas ButterfliesProof FloatProof FloatTree IeeeProof PropsFloatProof DHTTheory RealDHT RootProofs TreeProof Raders RadersContract.
From Verif Require Export TestPass.
From Coq Require Import Reals Lra Lia ZArith NArith.

Lemma each_ok {A} (l : list A) body : (forall a, In a l -> body a = Ok tt) -> each l body = Ok tt.
Proof.
  unfold each. induction l as [|a l IH]; intros Hb; [reflexivity|]. cbn [for_each]. rewrite Hb by (now left). apply IH. intros. apply Hb. now right.
Qed.
Lemma each_seq a n body : (forall i, a <= i < a + n -> body i = Ok tt) -> each (seq a n) body = Ok tt.
Proof. intros H. apply each_ok. intros i Hi. apply in_seq in Hi. now apply H. Qed.
Lemma usz_small n : n <= 1000 -> usz (8 * n).
Proof. intros H. unfold usz. change (2 ^ 64)%N with 18446744073709551616%N. lia. Qed.
(** a finite family of compositions *)
Lemma tolerable_seq (t : nat -> tree) a n : forallb (fun i => tolerable (t i)) (seq a n) = true -> forall i, a <= i < a + n -> tolerable (t i) = true.
Proof. intros H i Hi. apply (proj1 (forallb_forall _ _) H). apply in_seq. lia. Qed.

Section Suite.
  Context {T : Type} (F : fmt T) (N : Num T) (RN : rounded F N) (FT : FloatNum T).
  Hypothesis Habs : forall v, ffin F v -> ffin F (fl_abs v) /\ fval F (fl_abs v) = Rabs (fval F v).
  Hypothesis Hto : forall v, ffin F v -> is_finite (fl_to_f64 v) = true /\ B2R (fl_to_f64 v) = fval F v.
  Hypothesis Hu : (fu F <= weight)%R.
  Hypothesis Ht : (ftau F <= weight)%R.
  Hypothesis Hr : (frho F <= weight)%R.
  Hypothesis Hhi : (bpow radix2 100 <= fhi F)%R.
  Context (signal : nat -> list T) (Us : uniform F signal).
  Local Hint Extern 0 (Num T) => exact N : typeclass_instances.

  Lemma passes m t d n : in_range t -> representable F t -> build m t = Ok d -> 0 < n -> tree_len t = n -> tolerable t = true ->
    check_dht_algorithm signal d n = Ok tt.
  Proof. intros I R B P <- To. now apply (tolerable_passes F N RN FT Habs Hto Hu Ht Hr Hhi signal Us m). Qed.
  Lemma naive_repr n : n <= 1000 -> representable F (Naive n).
  Proof. intros H. split; auto. now apply usz_small. Qed.
  Ltac repr := repeat match goal with
    | |- representable _ (Naive _) => apply naive_repr
    | |- representable _ _ => split; [cbn [tree_len]; apply usz_small|]
    | |- _ /\ _ => split end; try exact I; try lia; try nia.

  Lemma suite_mixed : test_mixed_radix_correct signal = Ok tt.
  Proof.
    apply each_seq. intros w Hw. apply each_seq. intros h Hh.
    apply (passes Debug (Mixed (Naive w) (Naive h))); auto; cbn [in_range tree_len]; auto; [repr|nia|].
    assert (Q : forallb (fun w => forallb (fun h => tolerable (Mixed (Naive w) (Naive h))) (seq 1 8)) (seq 1 8) = true) by (vm_compute; reflexivity).
    rewrite forallb_forall in Q. assert (Iw : In w (seq 1 8)) by (apply in_seq; lia). specialize (Q w Iw). rewrite forallb_forall in Q.
    apply Q, in_seq. lia.
  Qed.
  Lemma suite_two : test_mixed_radix_2xn_correct signal = Ok tt.
  Proof.
    apply each_seq. intros h Hh. apply (passes Debug (Two (Naive h))); cbn [in_range tree_len]; auto; try lia; [repr|].
    apply (tolerable_seq (fun h => Two (Naive h)) 1 6); auto.
  Qed.
  Lemma suite_three : test_mixed_radix_3xn_correct signal = Ok tt.
  Proof.
    apply each_seq. intros h Hh. apply (passes Debug (Three (Naive h))); cbn [in_range tree_len]; auto; try lia; [repr|].
    apply (tolerable_seq (fun h => Three (Naive h)) 1 6); auto.
  Qed.
  Lemma suite_four : test_mixed_radix_4xn_correct signal = Ok tt.
  Proof.
    apply each_seq. intros h Hh. apply (passes Debug (Four (Naive h))); cbn [in_range tree_len]; auto; try lia; [repr|].
    apply (tolerable_seq (fun h => Four (Naive h)) 1 6); auto.
  Qed.
  Lemma suite_five : test_mixed_radix_5xn_correct signal = Ok tt.
  Proof.
    apply each_seq. intros h Hh. apply (passes Debug (Five (Naive h))); cbn [in_range tree_len]; auto; try lia; [repr|].
    apply (tolerable_seq (fun h => Five (Naive h)) 1 6); auto.
  Qed.
  Lemma suite_six : test_mixed_radix_6xn_correct signal = Ok tt.
  Proof.
    apply each_seq. intros h Hh. apply (passes Debug (Six (Naive h))); cbn [in_range tree_len]; auto; try lia; [repr|].
    apply (tolerable_seq (fun h => Six (Naive h)) 1 6); auto.
  Qed.
  Lemma suite_radix4 : test_radix4_correct signal = Ok tt.
  Proof.
    apply each_seq. intros p Hp. cbv zeta. destruct (radix4_upto64_ap F N RN p) as (D & E & _); [lia|]. rewrite E. cbn [bind].
    assert (Q : (2 ^ p / 4) * 4 = 2 ^ p /\ 4 <= 2 ^ p <= 64).
    { assert (C : p = 2 \/ p = 3 \/ p = 4 \/ p = 5 \/ p = 6) by lia. destruct C as [->|[->|[->|[->| ->]]]]; cbn; lia. }
    destruct Q as [Q1 Q2].
    rewrite (passes Debug (Four (Naive (2 ^ p / 4))) (mixed_radix_4xn (dht_naive (2 ^ p / 4))) (2 ^ p)); cbn [in_range tree_len]; auto; try lia; [|repr|].
    - cbn [bind]. apply (passes Debug (Rad4 (2 ^ p))); cbn [in_range tree_len]; auto; try lia; [repr|].
      apply (tolerable_seq (fun p => Rad4 (2 ^ p)) 2 5); [vm_compute; reflexivity|lia].
    - apply (tolerable_seq (fun p => Four (Naive (2 ^ p / 4))) 2 5); [vm_compute; reflexivity|lia].
  Qed.
  Lemma suite_split : test_split_radix_correct signal = Ok tt.
  Proof.
    apply each_seq. intros q Hq.
    assert (E : exists d, split_radix (dht_naive q) (dht_naive (q * 2)) = Ok d).
    { unfold split_radix, rassert. rewrite !naive_len, Nat.eqb_refl. cbn [bind]. eauto. }
    destruct E as [d E]. rewrite E. cbn [bind].
    apply (passes Debug (Split (Naive q) (Naive (q * 2)))); cbn [in_range tree_len build bind]; auto; try lia; [repr|].
    apply (tolerable_seq (fun q => Split (Naive q) (Naive (q * 2))) 1 29); [vm_compute; reflexivity|lia].
  Qed.
  Lemma suite_raders m : test_raders_correct signal m = Ok tt.
  Proof.
    apply each_seq. intros n Hn. destruct (miller_rabin (N.of_nat n)) eqn:M; [|reflexivity]. apply miller_rabin_ok in M.
    assert (C : n = 3 \/ n = 5 \/ n = 7).
    { destruct (Nat.eq_dec n 4) as [->|]; [now apply miller_rabin_ok in M|]. destruct (Nat.eq_dec n 6) as [->|]; [now apply miller_rabin_ok in M|].
      destruct (Nat.eq_dec n 8) as [->|]; [now apply miller_rabin_ok in M|]. destruct (Nat.eq_dec n 9) as [->|]; [now apply miller_rabin_ok in M|]. lia. }
    pose proof (r_u _ _ RN) as u0. pose proof (r_tau _ _ RN) as t0. pose proof (r_rho _ _ RN) as r0. unfold weight in *.
    assert (Rp : representable F (Rader (Naive (n - 1)))).
    { split; [cbn [tree_len]; apply usz_small; lia|]. split; [repr|].
      unfold tree_phi. cbn [roundings gain]. rewrite pow_O, Rmult_1_r, b100 in *.
      assert (P : forall v n, (0 <= v <= 1 -> 0 <= (1 + v) ^ n <= 2 ^ n)%R) by (intros; split; [apply pow_le|apply pow_incr]; lra).
      pose proof (P (fu F) 4) as P1. pose proof (P (ftau F) 2) as P2. pose proof (P (fu F) (n - 1 + 2)) as P3. pose proof (P (ftau F) 1) as P4.
      assert (P5 : (2 ^ (n - 1 + 2) <= 512)%R) by (destruct C as [->|[->| ->]]; cbn; lra).
      apply Rle_trans with (2 ^ 4 * 2 ^ 2 * (512 * 2 ^ 1) * (4 * 2))%R; [|cbn; lra].
      repeat (apply Rmult_le_compat; try lra; try (repeat apply Rmult_le_pos; lra)). }
    assert (E : exists d, raders m (dht_naive (n - 1)) = Ok d).
    { destruct (raders_ok m (dht_naive (n - 1)) (naive_fun (n - 1))) as (D & r & s & E & _); eauto.
      - apply transforms_ok. exact (naive_transforms (n - 1)).
      - rewrite naive_len. now replace (n - 1 + 1) with n by lia.
      - rewrite naive_len. lia.
      - rewrite naive_len. lia. }
    destruct E as [d E]. rewrite E. cbn [bind].
    apply (passes m (Rader (Naive (n - 1)))); cbn [in_range tree_len build bind]; auto; try lia.
    destruct C as [->|[->| ->]]; vm_compute; reflexivity.
  Qed.
End Suite.
