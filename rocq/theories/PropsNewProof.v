(** * Proofs of the properties in PropsNew.v *)
From Verif Require Export New NewSpec FloatSpec.
From Verif Require Import NewProof Euclid NewAgree NewTree FloatTree Safety.
From Coq Require Import NArith Lia.

Local Open Scope N_scope.

Lemma C51_constructors_proof (W : width) T (NT : Num T) m size : 2 <= size ->
  (forall n (D : Dht T), naive_new size n = Ok D -> dht_len D = n) /\
  (forall dw dh (D : Dht T), N.of_nat (dht_len dw) < span -> N.of_nat (dht_len dh) < span ->
     mixed_new m size dw dh = Ok D -> dht_len D = (dht_len dw * dht_len dh)%nat) /\
  (forall d (D : Dht T), radix2_new m size d = Ok D -> dht_len D = (2 * dht_len d)%nat) /\
  (forall d (D : Dht T), radix3_new m size d = Ok D -> dht_len D = (3 * dht_len d)%nat) /\
  (forall d (D : Dht T), radix4xn_new m size d = Ok D -> dht_len D = (4 * dht_len d)%nat) /\
  (forall d (D : Dht T), radix5_new m size d = Ok D -> dht_len D = (5 * dht_len d)%nat) /\
  (forall d (D : Dht T), radix6_new m size d = Ok D -> dht_len D = (6 * dht_len d)%nat) /\
  (forall n (D : Dht T), radix4_new m size n = Ok D -> dht_len D = n) /\
  (forall d (D : Dht T), N.of_nat (dht_len d) < span -> raders_new m size d = Ok D -> dht_len D = (dht_len d + 1)%nat).
Proof.
  intros S.
  split; [intros n D E; now apply naive_len in E|].
  split; [intros dw dh D L1 L2 E; now apply mixed_len in E|].
  split; [intros d D E; now apply two_len in E|].
  split; [intros d D E; now apply three_len in E|].
  split; [intros d D E; now apply four_len in E|].
  split; [intros d D E; now apply five_len in E|].
  split; [intros d D E; now apply six_len in E|].
  split; [intros n D E; now apply radix4_len in E|].
  intros d D L E; now apply rader_len in E.
Qed.
Lemma C51_split_debug_proof (W : width) T (NT : Num T) size dq dh (D : Dht T) : 2 <= size -> split_new Debug size dq dh = Ok D ->
  dht_len dh = (2 * dht_len dq)%nat /\ dht_len D = (4 * dht_len dq)%nat.
Proof. intros S E. apply split_len in E as (_ & E & _); auto. destruct (E eq_refl). lia. Qed.

Lemma split_wraps {W : width} T (NT : Num T) size (dq dh : Dht T) : size <= unit_of W ->
  N.of_nat (dht_len dq) = span / 4 + 1 -> N.of_nat (dht_len dh) = span / 2 + 2 ->
  exists D, split_new Release size dq dh = Ok D /\ dht_len D = 4%nat.
Proof.
  intros S Q H. unfold split_new.
  assert (U : umul Release (dht_len dq) 2 = Ok (N.to_nat (span / 2 + 2))) by (unfold umul; rewrite Q; destruct W; reflexivity).
  rewrite U. cbn [bind].
  assert (X : (dht_len dh =? N.to_nat (span / 2 + 2))%nat = true).
  { apply Nat.eqb_eq. rewrite <- H. now rewrite Nat2N.id. }
  rewrite X. cbn [rassert bind].
  assert (V : umul Release (dht_len dq) 4 = Ok 4%nat) by (unfold umul; rewrite Q; destruct W; reflexivity).
  rewrite V. cbn [bind]. change (4 / 8)%nat with 0%nat. rewrite uadd_ok by wnum. cbn [bind].
  rewrite umul_ok by wnum. cbn [bind].
  rewrite alloc_ok by (change (N.of_nat ((0 + 1) * 2)) with 2; wnum). cbn [bind].
  rewrite (push_lists_ok _ (fun x => [compute_dft_twiddle_inverse (x * 1) 4; compute_dft_twiddle_inverse (x * 3) 4])).
  - eexists. split; [reflexivity|reflexivity].
  - intros x Hx. apply in_seq in Hx. rewrite !umul_ok by wnum. reflexivity.
Qed.
Lemma C51_split_refuted_proof (W : width) T (NT : Num T) : exists dq dh D : Dht T,
  N.of_nat (dht_len dq) < span /\ N.of_nat (dht_len dh) < span /\ safe_rust dq /\ safe_rust dh /\
  split_new Release 8 dq dh = Ok D /\ dht_len D <> (4 * dht_len dq)%nat.
Proof.
  assert (Sf : forall n, safe_rust (mkDht n 0 0 (fun b s => Ok (b, s)) (fun i o s => Ok (i, o, s)) : Dht T)).
  { intros n. split; intros; (split; [discriminate|]); cbn; intros; injection H; intros; subst; auto. }
  destruct (split_wraps T NT 8 (mkDht (N.to_nat (span / 4 + 1)) 0 0 (fun b s => Ok (b, s)) (fun i o s => Ok (i, o, s)))
    (mkDht (N.to_nat (span / 2 + 2)) 0 0 (fun b s => Ok (b, s)) (fun i o s => Ok (i, o, s)))) as (D & E & L).
  - pose proof (unit_big W). lia.
  - cbn [dht_len]. apply N2Nat.id.
  - cbn [dht_len]. apply N2Nat.id.
  - do 2 eexists. exists D. cbn [dht_len]. split; [|split; [|split; [apply Sf|split; [apply Sf|split; [exact E|]]]]].
    + cbn [dht_len]. rewrite N2Nat.id. clear. destruct W; reflexivity.
    + cbn [dht_len]. rewrite N2Nat.id. clear. destruct W; reflexivity.
    + rewrite L. cbn [dht_len]. clear. intros C. apply (f_equal N.of_nat) in C. rewrite Nat2N.inj_mul, N2Nat.id in C. destruct W; discriminate C.
Qed.

Lemma C51_trees_proof (W : width) T (NT : Num T) m size t (d : Dht T) : 4 <= size -> construct m size t = Ok d ->
  dht_len d = tree_len t /\ N.of_nat (tree_len t) < span / 2.
Proof.
  intros S E. destruct (construct_len m size S t d E) as [L B]. split; auto. rewrite <- L, half_span. wnum.
Qed.
Lemma C52_agree_proof (W : width) T (NT : Num T) m size t : 4 <= size -> within isize_max size t -> raders_fit t ->
  @construct W T NT m size t = build m t \/ @construct W T NT m size t = Panic.
Proof. intros S B F. exact (construct_agrees m size S t B F). Qed.
Lemma ample_unit {W : width} : ample = unit_of W.
Proof. destruct W; reflexivity. Qed.
Lemma C52_complete_proof (W : width) T (NT : Num T) m size t : 4 <= size -> size <= ample -> within ample size t -> raders_fit t ->
  @construct W T NT m size t = build m t.
Proof. rewrite ample_unit. intros S B Hw F. exact (construct_same m size S B t Hw F). Qed.
(** 64-bit targets *)
Lemma C52_case_proof (W : width) : within ample 8 (Five (Rader (Mixed Fly2 (Three Fly1)))) /\ raders_fit (Five (Rader (Mixed Fly2 (Three Fly1)))).
Proof. split; [destruct W; cbn [within tree_len]; repeat split; discriminate|fit]. Qed.
Lemma raders_fit_64 t : @raders_fit W64 t.
Proof. induction t; cbn [raders_fit]; auto. split; [auto|]. intros H. discriminate H. Qed.

Lemma C51_case_proof (W : width) T (NT : Num T) m : exists d : Dht T,
  construct m 8 (Six (Mixed (Naive 3) (Split Fly1 Fly2))) = Ok d /\ dht_len d = 72%nat.
Proof.
  rewrite C52_complete_proof; [|discriminate|destruct W; discriminate| |cbn; auto 10].
  - eexists. split; [reflexivity|]. reflexivity.
  - cbn [within tree_len]. destruct W; repeat split; discriminate.
Qed.
Lemma C52_refuses_proof (W : width) T (NT : Num T) m : exists n, within isize_max 8 (Mixed Fly1 (Naive n)) /\
  @construct W T NT m 8 (Mixed Fly1 (Naive n)) = Panic.
Proof.
  assert (H : exists n, N.of_nat n = unit_of W - 1) by (exists (N.to_nat (unit_of W - 1)); apply N2Nat.id).
  destruct H as [n H]. exists n. split.
  - cbn [within tree_len]. rewrite Nat.mul_1_l, H. clear H. destruct W; repeat split; discriminate.
  - cbn [construct bind]. unfold naive_new. rewrite alloc_ok by (rewrite H; clear H; destruct W; discriminate). cbn [bind].
    assert (L : dht_len (dht_naive n : Dht T) = n) by (cbn; unfold naive_twiddles; now rewrite map_length, seq_length).
    assert (L' : dht_inplace_scratch (dht_naive n : Dht T) = n) by (cbn; unfold naive_twiddles; now rewrite map_length, seq_length).
    pose proof (unit_big W) as Ub.
    rewrite mixed_eq; rewrite ?L, ?L', ?H; change (N.of_nat (dht_len (@butterfly1 T))) with 1; try (change (N.of_nat (dht_oop_scratch (@butterfly1 T))) with 0); try lia.
    assert (A : alloc (2 * 8) ((dht_len (@butterfly1 T) / 2 + 1) * (n / 2 + 1)) = Panic).
    { change (dht_len (@butterfly1 T) / 2 + 1)%nat with 1%nat. rewrite Nat.mul_1_l. unfold alloc, rassert.
      assert (G : N.of_nat (n / 2 + 1) = unit_of W / 2).
      { pose proof (Nat.div_mod n 2 ltac:(lia)) as Dv. pose proof (Nat.mod_upper_bound n 2 ltac:(lia)). clear - H Dv H0. destruct W; [change (unit_of W32 / 2) with 134217728|change (unit_of W64 / 2) with 576460752303423488]; unfold unit_of in H; lia. }
      rewrite G. clear. destruct W; reflexivity. }
    rewrite A. reflexivity.
Qed.
