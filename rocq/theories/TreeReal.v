(** * Every assembled instance computes the DHT over exact reals *)
From Verif Require Import Lemmas NxnProof NxnInst MixedRadixProof MixedContract SplitRadixProof Radix4Proof NumTheory Residues MathProofs RootProofs RadersContract.
From Verif Require Import RealDHT DHTTheory MixedReal ButterfliesReal NxnReal SplitReal RadersReal Radix4Real.
From Verif Require Export TreeProof Spec.
From Coq Require Import Lia NArith Reals Lra.

Lemma dht_spec_len0 (x : list R) : length x = 0 -> length (dht_spec x) = 0.
Proof. intros. now rewrite dht_spec_length. Qed.

Section Leaves.
  Context (cst : R).
  Local Hint Extern 0 (Num R) => exact (RNum cst) : typeclass_instances.

  Lemma naive_exact n : dht_ok (dht_naive n) dht_spec.
  Proof.
    apply (dht_ok_ext _ (naive_fun n)); [apply naive_ok|].
    unfold dht_naive. rewrite naive_twiddles_length. intros x Hx. cbn [dht_len boilerplate_dht_oop] in Hx.
    destruct n; [destruct x; [reflexivity|discriminate]|]. apply naive_real; [lia|auto].
  Qed.
  Lemma bf1_exact : dht_ok (butterfly1 (T := R)) dht_spec.
  Proof. apply (dht_ok_ext _ (fun x => x)); [apply butterfly1_ok|]. intros x Hx. now apply bf1_real. Qed.
  Ltac bfx k r := eapply dht_ok_ext; [apply butterfly_ok; [lia|apply k]|exact r].
  Lemma bf2_exact : dht_ok (butterfly2 (T := R)) dht_spec. Proof. bfx @bf2_kernel (bf2_real cst). Qed.
  Lemma bf3_exact : dht_ok (butterfly3 (T := R)) dht_spec. Proof. bfx @bf3_kernel (bf3_real cst). Qed.
  Lemma bf4_exact : dht_ok (butterfly4 (T := R)) dht_spec. Proof. bfx @bf4_kernel (bf4_real cst). Qed.
  Lemma bf5_exact : dht_ok (butterfly5 (T := R)) dht_spec. Proof. bfx @bf5_kernel (bf5_real cst). Qed.
  Lemma bf6_exact : dht_ok (butterfly6 (T := R)) dht_spec. Proof. bfx @bf6_kernel (bf6_real cst). Qed.
  Lemma bf8_exact : dht_ok (butterfly8 (T := R)) dht_spec. Proof. bfx @bf8_kernel (bf8_real cst). Qed.
  Lemma bf9_exact : dht_ok (butterfly9 (T := R)) dht_spec. Proof. bfx @bf9_kernel (bf9_real cst). Qed.
  Lemma bf16_exact : dht_ok (butterfly16 (T := R)) dht_spec. Proof. bfx @bf16_kernel (bf16_real cst). Qed.

  Lemma radix2_exact d : dht_ok d dht_spec -> fits 2 d -> dht_ok (mixed_radix_2xn d) dht_spec.
  Proof.
    intros I F. destruct (Nat.eq_dec (dht_len d) 0) as [Z|Z]; [apply nxn_zero; auto using dht_spec_len0|].
    eapply dht_ok_ext; [apply mixed_radix_2xn_ok; eauto|]. intros x Hx. apply radix2_fun_real; auto. lia.
  Qed.
  Lemma radix4_exact d : dht_ok d dht_spec -> fits 4 d -> dht_ok (mixed_radix_4xn d) dht_spec.
  Proof.
    intros I F. destruct (Nat.eq_dec (dht_len d) 0) as [Z|Z]; [apply nxn_zero; auto using dht_spec_len0|].
    eapply dht_ok_ext; [apply mixed_radix_4xn_ok; eauto|]. intros x Hx. apply radix4_fun_real; auto. lia.
  Qed.
  Lemma split_exact dq dh : dht_ok dq dht_spec -> dht_ok dh dht_spec -> dht_len dh = dht_len dq * 2 ->
    dht_inplace_scratch dh <= dht_len dh -> dht_inplace_scratch dq <= dht_len dq * 4 -> dht_oop_scratch dq = 0 ->
    exists d, split_radix dq dh = Ok d /\ dht_ok d dht_spec.
  Proof.
    intros I1 I2 L F1 F2 F3.
    destruct (split_radix_ok dq dh _ _ I1 I2 L F1 F2 F3) as (d & E & O & _ & Ld & _). exists d. split; auto.
    destruct (Nat.eq_dec (dht_len dq) 0) as [Z|Z]; [eapply split_zero; eauto using dht_spec_len0|].
    apply (dht_ok_ext _ _ _ O). intros x Hx. apply split_real; auto; lia.
  Qed.
  Lemma radix4_upto64_exact k : k <= 6 -> exists d : Dht R, radix4 (2 ^ k) = Ok d /\ dht_ok d dht_spec.
  Proof.
    intros Hk. destruct (radix4_ok (T := R) k) as (d & E & O & _ & L & _). exists d. split; auto.
    apply (dht_ok_ext _ _ _ O). intros x Hx. apply radix4_small_real; auto. lia.
  Qed.
  Lemma raders_exact m d : dht_ok d dht_spec -> nprime (N.of_nat (dht_len d + 1)) -> 2 <= dht_len d ->
    (N.of_nat (dht_len d + 1) <= 2 ^ 32)%N -> exists D, raders m d = Ok D /\ dht_ok D dht_spec.
  Proof.
    intros I P L S. destruct (raders_ok m d _ I P L S) as (D & r & s & E & _ & Hr & Hs & Or & Os & Hrs & O & _ & LD & _).
    exists D. split; auto. apply (dht_ok_ext _ _ _ O). intros x Hx.
    assert (Sp : std_prime (dht_len d + 1)) by (apply nprime_nat in P; now rewrite Nat2N.id in P).
    apply raders_real; auto; lia.
  Qed.

  Section Exact.
  Hypothesis rho1 : (cst * sqrt 2 = 1)%R.
  Lemma mixed_exact dw dh : dht_ok dw dht_spec -> dht_ok dh dht_spec -> dht_ok (mixed_radix dw dh) dht_spec.
  Proof.
    intros I1 I2. destruct (mixed_radix_ok dw dh _ _ I1 I2) as [O _].
    destruct (Nat.eq_dec (dht_len dw * dht_len dh) 0) as [Z|Z].
    - unfold mixed_radix in *. cbv zeta in *. rewrite Z in *. apply boilerplate_zero, dht_spec_len0.
    - apply (dht_ok_ext _ _ _ O). intros x Hx. apply mixed_fun_real; auto; nia.
  Qed.
  Lemma radix3_exact d : dht_ok d dht_spec -> fits 3 d -> dht_ok (mixed_radix_3xn d) dht_spec.
  Proof.
    intros I F. destruct (Nat.eq_dec (dht_len d) 0) as [Z|Z]; [apply nxn_zero; auto using dht_spec_len0|].
    eapply dht_ok_ext; [apply mixed_radix_3xn_ok; eauto|]. intros x Hx. apply radix3_fun_real; auto. lia.
  Qed.
  Lemma radix5_exact d : dht_ok d dht_spec -> fits 5 d -> dht_ok (mixed_radix_5xn d) dht_spec.
  Proof.
    intros I F. destruct (Nat.eq_dec (dht_len d) 0) as [Z|Z]; [apply nxn_zero; auto using dht_spec_len0|].
    eapply dht_ok_ext; [apply mixed_radix_5xn_ok; eauto|]. intros x Hx. apply radix5_fun_real; auto. lia.
  Qed.
  Lemma radix6_exact d : dht_ok d dht_spec -> fits 6 d -> dht_ok (mixed_radix_6xn d) dht_spec.
  Proof.
    intros I F. destruct (Nat.eq_dec (dht_len d) 0) as [Z|Z]; [apply nxn_zero; auto using dht_spec_len0|].
    eapply dht_ok_ext; [apply mixed_radix_6xn_ok; eauto|]. intros x Hx. apply radix6_fun_real; auto. lia.
  Qed.

  Variables (m : profile) (A : allowed R).
  Hypothesis user_exact : forall d, al_user A d -> dht_ok d dht_spec /\ modest_pos d.
  Hypothesis rader_small : forall p, al_rader A p -> (N.of_nat p <= 2 ^ 32)%N.
  Hypothesis radix4_small : forall n, al_radix4 A n -> n <= 64.

  Let modest_of d : assembled m A d -> modest_pos d.
  Proof. apply assembled_modest. intros d' U. split; [exists dht_spec|]; now apply user_exact. Qed.

  Let zero_or (k : nat) (d : Dht R) apply : 0 < k -> assembled m A d ->
    (fits k d -> dht_ok (nxn k d apply) dht_spec) -> dht_ok (nxn k d apply) dht_spec.
  Proof.
    intros Hk A1 H. destruct (Nat.eq_dec (dht_len d) 0) as [Z|Z]; [apply nxn_zero; auto using dht_spec_len0|].
    apply H, fits_modest; auto. apply modest_of; auto. lia.
  Qed.

  Lemma assembled_exact d : assembled m A d -> dht_ok d dht_spec.
  Proof.
    induction 1 as [d U|n| | | | | | | | | |dw dh A1 I1 A2 I2|d A1 I1|d A1 I1|d A1 I1|d A1 I1|d A1 I1
      |dq dh d A1 I1 A2 I2 E|len d E S|d D A1 I1 E S];
      auto using naive_exact, bf1_exact, bf2_exact, bf3_exact, bf4_exact, bf5_exact, bf6_exact, bf8_exact, bf9_exact, bf16_exact, mixed_exact.
    - now apply user_exact.
    - apply zero_or; [lia|auto|]. now apply radix2_exact.
    - apply zero_or; [lia|auto|]. now apply radix3_exact.
    - apply zero_or; [lia|auto|]. now apply radix4_exact.
    - apply zero_or; [lia|auto|]. now apply radix5_exact.
    - apply zero_or; [lia|auto|]. now apply radix6_exact.
    - destruct (Nat.eq_dec (dht_len dq) 0) as [Z|Z]; [eapply split_zero; eauto using dht_spec_len0|].
      destruct (split_radix_len _ _ _ E) as (L1 & L2 & L3 & L4).
      destruct (modest_of _ A1 ltac:(lia)) as [Q1 Q2]. destruct (modest_of _ A2 ltac:(lia)) as [H1 H2].
      destruct (split_exact dq dh I1 I2 L1 H1 ltac:(lia) Q2) as (d' & E' & O).
      rewrite E in E'. injection E' as <-. auto.
    - apply radix4_small in S. destruct (radix4_pow _ _ E) as [k ->].
      destruct (radix4_upto64_exact k) as (d' & E' & O).
      { apply (Nat.pow_le_mono_r_iff 2); [lia|]. exact S. }
      rewrite E in E'. injection E' as <-. auto.
    - destruct (raders_prime _ _ _ E) as [P L]. destruct (raders_len _ _ _ E) as (L1 & _).
      destruct (raders_exact m d I1 P L) as (D' & E' & O).
      { rewrite <- L1. now apply rader_small. }
      rewrite E in E'. injection E' as <-. auto.
  Qed.
  End Exact.
End Leaves.
