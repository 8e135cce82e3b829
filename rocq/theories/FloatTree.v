(** * Rounding errors of every constructor and of whole trees *)
From Verif Require Import Lemmas NxnProof NxnInst MixedRadixProof MixedContract SplitRadixProof Radix4Proof NumTheory Residues MathProofs RootProofs RadersProof RadersContract.
From Verif Require Import RealDHT DHTTheory MixedReal ButterfliesReal NxnReal SplitReal RadersReal Radix4Real.
From Verif Require Import FloatProof FloatButterflies FloatMixed FloatSplit FloatRaders PropsSameProof.
From Verif Require Export TreeProof TreeReal FloatSpec.
From Coq Require Import Lia NArith Reals Lra.
Local Open Scope R_scope.

Lemma sqrt2_bounds : 1 <= sqrt 2 <= 2.
Proof.
  split; [rewrite <- sqrt_1; apply sqrt_le_1_alt; lra|]. rewrite <- (sqrt_square 2) at 2 by lra. apply sqrt_le_1_alt; lra.
Qed.

Section Approx.
  Context {V : Type} (Fm : fmt V) (N : Num V).
  Lemma approx_elim d phi G : approximates Fm N d phi G ->
    1 <= phi /\ sqrt 2 <= G /\ exists f, dht_ok d f /\ tkf Fm f (dht_len d) phi G.
  Proof.
    intros (P & Q & f & T & E). split; [|split]; auto. exists f.
    split; [exact (proj2 (transforms_ok _ _) T)|]. now apply approx_tkf.
  Qed.
  Lemma approx_intro d f phi G n : 1 <= phi -> sqrt 2 <= G -> dht_ok d f -> dht_len d = n -> tkf Fm f n phi G -> approximates Fm N d phi G.
  Proof.
    intros P Q O L F. split; [|split]; auto. exists f. split; [exact (proj1 (transforms_ok _ _) O)|].
    rewrite L. intros x k Lx Hk. now apply (tkf_approx Fm N f n).
  Qed.
  Lemma approx_zero d f phi G : 1 <= phi -> sqrt 2 <= G -> dht_ok d f -> dht_len d = 0%nat -> approximates Fm N d phi G.
  Proof. intros P Q O L. apply (approx_intro _ f _ _ 0); auto. intros p M a x _ _ _ _ k Hk. lia. Qed.
  Lemma approx_mono d phi G phi' G' : phi <= phi' -> G <= G' -> approximates Fm N d phi G -> approximates Fm N d phi' G'.
  Proof.
    intros A B (P & Q & f & T & E). pose proof sqrt2_bounds. split; [lra|]. split; [lra|]. exists f. split; auto.
    intros x k Lx Hk Fx Hc. assert (S : 0 <= size Fm x).
    { unfold size. apply rsum_nonneg. intros. eapply Rle_trans; [apply Rabs_pos|apply Rmax_l]. }
    assert (GS : G * size Fm x <= G' * size Fm x) by (apply Rmult_le_compat_r; auto).
    assert (0 <= G * size Fm x) by (apply Rmult_le_pos; lra).
    assert (C : phi * (G * size Fm x) <= fhi Fm) by (eapply Rle_trans; [|exact Hc]; apply Rmult_le_compat; lra).
    destruct (E x k Lx Hk Fx C) as [E1 E2]. split; auto. apply (Rle_trans _ _ _ E2). apply Rmult_le_compat; lra.
  Qed.
End Approx.

Section Rounded.
  Context {V : Type} (Fm : fmt V) (N : Num V) (RN : rounded Fm N).
  Notation u := (fu Fm). Notation tau := (ftau Fm). Notation rho := (frho Fm). Notation tkf := (tkf Fm). Notation tkn := (tkn Fm). Notation ckn := (ckn Fm). Notation ck := (ck Fm). Notation tk := (tk Fm).
  Local Hint Extern 0 (Num V) => exact N : typeclass_instances.
  Let u0 : 0 <= u. Proof. apply (r_u _ _ RN). Qed.
  Let tau0 : 0 <= tau. Proof. apply (r_tau _ _ RN). Qed.
  Let rho0 : 0 <= rho. Proof. apply (r_rho _ _ RN). Qed.
  Notation fac := (fac u tau).
  Let fac1 a b : 1 <= fac a b. Proof. apply (fac_1 Fm N RN). Qed.
  Let s2 := sqrt2_bounds.
  Lemma mul1 a b : 1 <= a -> 1 <= b -> 1 <= a * b.
  Proof. intros. nra. Qed.

  Lemma naive_ap n : usz n -> approximates Fm N (dht_naive n) (fac (n + 2) 1) 2.
  Proof.
    intros Us. apply (approx_intro Fm N _ (naive_fun n) _ _ n); auto; [lra|apply naive_ok| |now apply (naive_tkf Fm N RN)].
    unfold dht_naive. now rewrite naive_twiddles_length.
  Qed.
  Lemma bf1_ap : approximates Fm N butterfly1 (fac 0 0) 2.
  Proof.
    replace (fac 0 0) with 1 by (unfold fac; simpl; lra).
    apply (approx_intro Fm N _ (fun x => x) _ _ 1); auto; try lra; [apply butterfly1_ok|apply bf1_tkf].
  Qed.
  Ltac bfa n k l := eapply (approx_intro Fm N _ _ _ _ n); [apply fac1|lra|apply butterfly_ok; [lia|apply k]|reflexivity|exact (l V Fm N RN)].
  Lemma bf2_ap : approximates Fm N butterfly2 (fac 1 0) 2. Proof. bfa 2%nat @bf2_kernel @bf2_tkf. Qed.
  Lemma bf3_ap : approximates Fm N butterfly3 (fac 4 1) 2. Proof. bfa 3%nat @bf3_kernel @bf3_tkf. Qed.
  Lemma bf4_ap : approximates Fm N butterfly4 (fac 2 0) 2. Proof. bfa 4%nat @bf4_kernel @bf4_tkf. Qed.
  Lemma bf5_ap : approximates Fm N butterfly5 (fac 5 1) 2. Proof. bfa 5%nat @bf5_kernel @bf5_tkf. Qed.
  Lemma bf6_ap : approximates Fm N butterfly6 (fac 7 2) 4. Proof. bfa 6%nat @bf6_kernel @bf6_tkf. Qed.
  Lemma bf8_ap : approximates Fm N butterfly8 (fac 5 1) 2. Proof. bfa 8%nat @bf8_kernel @bf8_tkf. Qed.
  Lemma bf9_ap : approximates Fm N butterfly9 (fac 9 1) 12. Proof. bfa 9%nat @bf9_kernel @bf9_tkf. Qed.
  Lemma bf16_ap : approximates Fm N butterfly16 (fac 6 1) 2. Proof. bfa 16%nat @bf16_kernel @bf16_tkf. Qed.

  Lemma mixed_gain Gw Gh : sqrt 2 <= Gw -> sqrt 2 <= Gh -> sqrt 2 <= 4 * Gw * Gh.
  Proof. intros. assert (1 <= Gw * Gh) by (apply mul1; lra). nra. Qed.
  Lemma mixed_ap dw dh phiw Gw phih Gh : usz (dht_len dw * dht_len dh * 8) -> approximates Fm N dw phiw Gw -> approximates Fm N dh phih Gh ->
    approximates Fm N (mixed_radix dw dh) (phih * phiw * (1 + rho) * fac 4 1) (4 * Gw * Gh).
  Proof.
    intros Us Aw Ah. destruct (approx_elim _ _ _ _ _ Aw) as (Pw & Qw & fw & Ow & Fw). destruct (approx_elim _ _ _ _ _ Ah) as (Ph & Qh & fh & Oh & Fh).
    pose proof (fac1 4 1). assert (P : 1 <= phih * phiw * (1 + rho) * fac 4 1) by (repeat apply mul1; lra).
    pose proof (mixed_gain _ _ Qw Qh). destruct (mixed_radix_ok dw dh _ _ Ow Oh) as [O _].
    assert (L : dht_len (mixed_radix dw dh) = (dht_len dw * dht_len dh)%nat) by reflexivity.
    destruct (Nat.eq_dec (dht_len dw * dht_len dh) 0) as [Z|Z]; [eapply approx_zero; eauto; congruence|].
    eapply approx_intro; eauto. apply (mixed_tkf Fm N RN); auto; try nia; try lra; [apply Ow|apply Oh].
  Qed.
  Let len_nxn k d (apply : list V -> res (list V)) : dht_len (nxn k d apply) = (k * dht_len d)%nat.
  Proof. reflexivity. Qed.
  Lemma two_ap d phi G : approximates Fm N d phi G -> fits 2 d -> usz (8 * dht_len d) -> approximates Fm N (mixed_radix_2xn d) (phi * fac 3 1) (2 * G).
  Proof.
    intros A F Us. destruct (approx_elim _ _ _ _ _ A) as (P & Q & f & O & T). pose proof (fac1 3 1).
    destruct (mixed_radix_2xn_ok d f O F) as [O' _].
    assert (1 <= phi * fac 3 1) by (apply mul1; auto).
    destruct (Nat.eq_dec (dht_len d) 0) as [Z|Z].
    - eapply approx_zero; eauto; [lra|]. unfold mixed_radix_2xn. rewrite len_nxn. lia.
    - eapply approx_intro; eauto; [lra|]. apply (radix2_tkf Fm N RN); auto; [lia|apply O].
  Qed.
  Lemma four_ap d phi G : approximates Fm N d phi G -> fits 4 d -> usz (8 * dht_len d) -> approximates Fm N (mixed_radix_4xn d) (phi * fac 4 1) (2 * G).
  Proof.
    intros A F Us. destruct (approx_elim _ _ _ _ _ A) as (P & Q & f & O & T). pose proof (fac1 4 1).
    destruct (mixed_radix_4xn_ok d f O F) as [O' _].
    assert (1 <= phi * fac 4 1) by (apply mul1; auto).
    destruct (Nat.eq_dec (dht_len d) 0) as [Z|Z].
    - eapply approx_zero; eauto; [lra|]. unfold mixed_radix_4xn. rewrite len_nxn. lia.
    - eapply approx_intro; eauto; [lra|]. apply (radix4_tkf Fm N RN); auto; [lia|apply O].
  Qed.
  (** 3xn, 5xn and 6xn are MixedRadix over a butterfly (C38) *)
  Lemma tkf_ext (f g : list V -> list V) n phi G : (forall x, g x = f x) -> tkf f n phi G -> tkf g n phi G.
  Proof. intros E F p M a x Hp La Lx T k Hk. rewrite E. auto. Qed.
  Ltac over_bf nxnok :=
    let A := fresh "A" in let F := fresh "F" in
    intros A F Us; destruct (approx_elim _ _ _ _ _ A) as (P & Q & f & O & T);
    destruct (nxnok V N _ f O F) as [O' _].
  Lemma three_ap d phi G : approximates Fm N d phi G -> fits 3 d -> usz (3 * dht_len d * 8) ->
    approximates Fm N (mixed_radix_3xn d) (phi * fac 4 1 * (1 + rho) * fac 4 1) (8 * G).
  Proof.
    over_bf @mixed_radix_3xn_ok.
    pose proof (fac1 4 1). assert (1 <= phi * fac 4 1 * (1 + rho) * fac 4 1) by (repeat apply mul1; lra).
    assert (sqrt 2 <= 8 * G) by (nra).
    destruct (Nat.eq_dec (dht_len d) 0) as [Z|Z].
    - eapply approx_zero; eauto. unfold mixed_radix_3xn. rewrite len_nxn. lia.
    - eapply approx_intro; eauto. eapply tkf_ext; [intros x; apply radix3_fun_mixed|].
      replace (8 * G) with (4 * 2 * G) by ring.
      apply (mixed_tkf Fm N RN butterfly3 d); auto; try lra; try exact (bf3_tkf Fm N RN); try apply O; try (cbn; lia).
      apply (butterfly_ok 3 _ ltac:(lia) (bf3_kernel _)).
  Qed.
  Lemma five_ap d phi G : approximates Fm N d phi G -> fits 5 d -> usz (5 * dht_len d * 8) ->
    approximates Fm N (mixed_radix_5xn d) (phi * fac 5 1 * (1 + rho) * fac 4 1) (8 * G).
  Proof.
    over_bf @mixed_radix_5xn_ok.
    pose proof (fac1 4 1). pose proof (fac1 5 1). assert (1 <= phi * fac 5 1 * (1 + rho) * fac 4 1) by (repeat apply mul1; lra).
    assert (sqrt 2 <= 8 * G) by (nra).
    destruct (Nat.eq_dec (dht_len d) 0) as [Z|Z].
    - eapply approx_zero; eauto. unfold mixed_radix_5xn. rewrite len_nxn. lia.
    - eapply approx_intro; eauto. eapply tkf_ext; [intros x; apply radix5_fun_mixed|].
      replace (8 * G) with (4 * 2 * G) by ring.
      apply (mixed_tkf Fm N RN butterfly5 d); auto; try lra; try exact (bf5_tkf Fm N RN); try apply O; try (cbn; lia).
      apply (butterfly_ok 5 _ ltac:(lia) (bf5_kernel _)).
  Qed.
  Lemma six_ap d phi G : approximates Fm N d phi G -> fits 6 d -> usz (6 * dht_len d * 8) ->
    approximates Fm N (mixed_radix_6xn d) (phi * fac 7 2 * (1 + rho) * fac 4 1) (16 * G).
  Proof.
    over_bf @mixed_radix_6xn_ok.
    pose proof (fac1 4 1). pose proof (fac1 7 2). assert (1 <= phi * fac 7 2 * (1 + rho) * fac 4 1) by (repeat apply mul1; lra).
    assert (sqrt 2 <= 16 * G) by (nra).
    destruct (Nat.eq_dec (dht_len d) 0) as [Z|Z].
    - eapply approx_zero; eauto. unfold mixed_radix_6xn. rewrite len_nxn. lia.
    - eapply approx_intro; eauto. eapply tkf_ext; [intros x; apply radix6_fun_mixed|].
      replace (16 * G) with (4 * 4 * G) by ring.
      apply (mixed_tkf Fm N RN butterfly6 d); auto; try lra; try exact (bf6_tkf Fm N RN); try apply O; try (cbn; lia).
      apply (butterfly_ok 6 _ ltac:(lia) (bf6_kernel _)).
  Qed.
  Lemma split_ap dq dh phiq Gq phih Gh : approximates Fm N dq phiq Gq -> approximates Fm N dh phih Gh -> dht_len dh = (dht_len dq * 2)%nat -> usz (dht_len dq * 4) ->
    (dht_inplace_scratch dh <= dht_len dh)%nat -> (dht_inplace_scratch dq <= dht_len dq * 4)%nat -> dht_oop_scratch dq = 0%nat ->
    exists d, split_radix dq dh = Ok d /\
      approximates Fm N d (Rmax (phih * fac 1 0) (phiq * fac 4 1)) (Rmax Gh (2 * Gq)).
  Proof.
    intros Aq Ah L Us F1 F2 F3. destruct (approx_elim _ _ _ _ _ Aq) as (Pq & Qq & fq & Oq & Fq). destruct (approx_elim _ _ _ _ _ Ah) as (Ph & Qh & fh & Oh & Fh).
    destruct (split_radix_ok dq dh _ _ Oq Oh L F1 F2 F3) as (d & E & O & _ & Ld & _). exists d. split; auto.
    pose proof (fac1 1 0). assert (1 <= Rmax (phih * fac 1 0) (phiq * fac 4 1)) by (eapply Rle_trans; [|apply Rmax_l]; now apply mul1).
    assert (sqrt 2 <= Rmax Gh (2 * Gq)) by (eapply Rle_trans; [|apply Rmax_l]; auto).
    destruct (Nat.eq_dec (dht_len dq) 0) as [Z|Z]; [eapply approx_zero; eauto; lia|].
    eapply approx_intro; eauto. apply (split_tkf Fm N RN); auto; [lia|lra|]. now rewrite <- L.
  Qed.
  Lemma raders_ap m d phi G : approximates Fm N d phi G -> nprime (N.of_nat (dht_len d + 1)) -> (2 <= dht_len d)%nat ->
    (N.of_nat (dht_len d + 1) <= 2 ^ 32)%N -> fac 4 2 * phi * (4 * G) <= fhi Fm ->
    exists D, raders m d = Ok D /\ approximates Fm N D (phi * phi * phi * fac 6 2) (4 * INR (dht_len d) * (G * G * G)).
  Proof.
    intros A P L S Cap. destruct (approx_elim _ _ _ _ _ A) as (Pp & Q & f & O & F).
    destruct (raders_ok m d _ O P L S) as (D & r & s & E & _ & Hr & Hs & Or & Os & Hrs & O' & _ & LD & _).
    exists D. split; auto. assert (Sp : std_prime (dht_len d + 1)) by (apply nprime_nat in P; now rewrite Nat2N.id in P).
    pose proof (fac1 6 2). assert (1 <= INR (dht_len d)) by (apply (le_INR 1); lia).
    assert (1 <= G * G) by (apply mul1; lra). assert (1 <= G * G * G) by (apply mul1; lra). assert (1 <= INR (dht_len d) * (G * G * G)) by (apply mul1; lra).
    assert (1 <= phi * phi * phi * fac 6 2) by (apply mul1; auto; apply mul1; auto; apply mul1; auto).
    eapply approx_intro; eauto; [lra|].
    replace (INR (dht_len d)) with (INR (dht_len d + 1 - 1)) by (f_equal; lia).
    apply (raders_tkf Fm N RN); auto; try lia; try lra.
    1: unfold usz; lia.
    now replace (dht_len d + 1 - 1)%nat with (dht_len d) by lia.
  Qed.

  (** ** Radix4 up to 64 *)
  Lemma radix4_zero_ap k fb phi : 1 <= phi -> r4_layers k = 0%nat -> r4_base k = (2 ^ k)%nat -> r4_basefun k = fb ->
    tkf fb (2 ^ k) phi 2 -> exists D, radix4 (2 ^ k) = Ok D /\ approximates Fm N D phi 2.
  Proof.
    intros P E0 E1 E2 F. destruct (radix4_ok (T := V) k) as (D & E & O & _ & L & _). exists D. split; auto.
    eapply approx_intro; eauto; [lra|]. intros p M a x Hp La Lx T j Hj. unfold radix4_len_fun. rewrite E0, E1, E2, r4_zero_layers by auto.
    now apply F.
  Qed.
  Lemma radix4_one_ap k (d : Dht V) b fb phi : 1 <= phi -> dht_len d = b -> dht_ok d fb -> r4_base k = b -> r4_layers k = 1%nat -> r4_basefun k = fb ->
    (2 ^ k = 4 * b)%nat -> (0 < b)%nat -> usz (8 * b) -> tkf fb b phi 2 -> exists D, radix4 (2 ^ k) = Ok D /\ approximates Fm N D (phi * fac 4 1) 4.
  Proof.
    intros P Lb O1 E1 E2 E3 E4 Hb Ub F. destruct (radix4_ok (T := V) k) as (D & E & O & _ & L & _). exists D. split; auto.
    pose proof (fac1 4 1). eapply approx_intro; eauto; [now apply mul1|lra|].
    intros p M a x Hp La Lx T j Hj. unfold radix4_len_fun. rewrite E1, E2, E3, radix4_one_layer.
    replace 4 with (2 * 2) by lra. assert (G := radix4_tkf Fm N RN d fb phi 2).
    rewrite Lb in G. rewrite E4 in *. unfold radix4_fun, nxn_fun in G. rewrite Lb in G.
    apply G; auto. rewrite <- Lb. apply O1.
  Qed.
  Lemma radix4_upto64_ap k : (k <= 6)%nat -> exists D, radix4 (2 ^ k) = Ok D /\ approximates Fm N D (fac 10 2) 4.
  Proof.
    intros Hk.
    assert (W : forall phi G D, phi <= fac 10 2 -> G <= 4 -> radix4 (2 ^ k) = Ok D /\ approximates Fm N D phi G ->
      exists D, radix4 (2 ^ k) = Ok D /\ approximates Fm N D (fac 10 2) 4).
    { intros phi G D A B [E H]. exists D. split; auto. now apply (approx_mono Fm N D phi G). }
    assert (FM : forall a b, (a <= 10)%nat -> (b <= 2)%nat -> fac a b <= fac 10 2) by (intros; now apply (fac_mono Fm N RN)).
    assert (C : (k = 0 \/ k = 1 \/ k = 2 \/ k = 3 \/ k = 4 \/ k = 5 \/ k = 6)%nat) by lia.
    destruct C as [->|[->|[->|[->|[->|[->| ->]]]]]].
    - destruct (radix4_zero_ap 0 (fun x => x) 1) as (D & H); try reflexivity; try lra; [exact (bf1_tkf Fm N)|].
      apply (W 1 2 D); auto; try lra.
    - destruct (radix4_zero_ap 1 _ (fac 1 0) (fac1 _ _) eq_refl eq_refl eq_refl (bf2_tkf Fm N RN)) as (D & H).
      apply (W (fac 1 0) 2 D); auto; try lra. apply FM; lia.
    - destruct (radix4_zero_ap 2 _ (fac 2 0) (fac1 _ _) eq_refl eq_refl eq_refl (bf4_tkf Fm N RN)) as (D & H).
      apply (W (fac 2 0) 2 D); auto; try lra. apply FM; lia.
    - destruct (radix4_zero_ap 3 _ (fac 5 1) (fac1 _ _) eq_refl eq_refl eq_refl (bf8_tkf Fm N RN)) as (D & H).
      apply (W (fac 5 1) 2 D); auto; try lra. apply FM; lia.
    - destruct (radix4_zero_ap 4 _ (fac 6 1) (fac1 _ _) eq_refl eq_refl eq_refl (bf16_tkf Fm N RN)) as (D & H).
      apply (W (fac 6 1) 2 D); auto; try lra. apply FM; lia.
    - destruct (radix4_one_ap 5 butterfly8 8 _ (fac 5 1) (fac1 _ _) eq_refl
        (proj1 (butterfly_ok 8 _ ltac:(lia) (bf8_kernel _))) eq_refl eq_refl eq_refl eq_refl ltac:(lia) eq_refl (bf8_tkf Fm N RN)) as (D & H).
      apply (W (fac 5 1 * fac 4 1) 4 D); auto; try lra. rewrite fac_mul. apply FM; lia.
    - destruct (radix4_one_ap 6 butterfly16 16 _ (fac 6 1) (fac1 _ _) eq_refl
        (proj1 (butterfly_ok 16 _ ltac:(lia) (bf16_kernel _))) eq_refl eq_refl eq_refl eq_refl ltac:(lia) eq_refl (bf16_tkf Fm N RN)) as (D & H).
      apply (W (fac 6 1 * fac 4 1) 4 D); auto; try lra. rewrite fac_mul. apply FM; lia.
  Qed.
End Rounded.

(** ** trees and the instances assembled from the constructors *)
Section Trees.
  Context {T : Type} {NT : Num T} (m : profile).
  Lemma build_len t (d : Dht T) : build m t = Ok d -> dht_len d = tree_len t.
  Proof.
    revert d. induction t; intros d E; cbn [build tree_len] in *;
      try (injection E as <-; reflexivity);
      try (destruct (build m t) as [d1| | |] eqn:B; cbn [bind] in E; try discriminate);
      try (injection E as <-; rewrite <- (IHt _ eq_refl); reflexivity).
    - injection E as <-. unfold dht_naive. now rewrite naive_twiddles_length.
    - destruct (build m t1) as [d1| | |] eqn:B1; cbn [bind] in E; try discriminate.
      destruct (build m t2) as [d2| | |] eqn:B2; cbn [bind] in E; try discriminate.
      injection E as <-. rewrite <- (IHt1 _ eq_refl), <- (IHt2 _ eq_refl). reflexivity.
    - destruct (build m t1) as [d1| | |] eqn:B1; cbn [bind] in E; try discriminate.
      destruct (build m t2) as [d2| | |] eqn:B2; cbn [bind] in E; try discriminate.
      apply split_radix_len in E. rewrite <- (IHt1 _ eq_refl). apply E.
    - apply radix4_sizes in E. apply E.
    - apply raders_len in E. rewrite <- (IHt _ eq_refl). apply E.
  Qed.
  Lemma build_assembled t (d : Dht T) : in_range t -> build m t = Ok d -> assembled m ranged d.
  Proof.
    revert d. induction t; intros d I E; cbn [build in_range] in *;
      try (destruct (build m t) as [d1| | |] eqn:B; cbn [bind] in E; try discriminate);
      try (destruct (build m t1) as [d1| | |] eqn:B1; cbn [bind] in E; try discriminate;
           destruct (build m t2) as [d2| | |] eqn:B2; cbn [bind] in E; try discriminate; destruct I as [I1 I2]).
    1-10: injection E as <-; auto using as_naive, as_bf1, as_bf2, as_bf3, as_bf4, as_bf5, as_bf6, as_bf8, as_bf9, as_bf16.
    - injection E as <-. apply as_mixed; auto.
    - injection E as <-. apply as_2xn; auto.
    - injection E as <-. apply as_3xn; auto.
    - injection E as <-. apply as_4xn; auto.
    - injection E as <-. apply as_5xn; auto.
    - injection E as <-. apply as_6xn; auto.
    - eapply as_split; [| |exact E]; auto.
    - eapply as_radix4; [exact E|]. exact I.
    - destruct I as [I1 I2]. eapply as_rader; [apply IHt; auto|exact E|]. apply raders_len in E. destruct E as [-> _].
      apply build_len in B. rewrite B. exact I2.
  Qed.
  Lemma assembled_build (d : Dht T) : assembled m ranged d -> exists t, in_range t /\ build m t = Ok d.
  Proof.
    induction 1 as [d U|n| | | | | | | | | |dw dh A1 (t1 & I1 & E1) A2 (t2 & I2 & E2)|d A1 (t & I & B)|d A1 (t & I & B)|d A1 (t & I & B)|d A1 (t & I & B)|d A1 (t & I & B)
      |dq dh d A1 (t1 & I1 & E1) A2 (t2 & I2 & E2) E|len d E S|d D A1 (t & I & B) E S].
    - destruct U.
    - exists (Naive n). split; [exact I|reflexivity].
    - exists Fly1. split; [exact I|reflexivity].
    - exists Fly2. split; [exact I|reflexivity].
    - exists Fly3. split; [exact I|reflexivity].
    - exists Fly4. split; [exact I|reflexivity].
    - exists Fly5. split; [exact I|reflexivity].
    - exists Fly6. split; [exact I|reflexivity].
    - exists Fly8. split; [exact I|reflexivity].
    - exists Fly9. split; [exact I|reflexivity].
    - exists Fly16. split; [exact I|reflexivity].
    - exists (Mixed t1 t2). cbn [in_range build]. rewrite E1, E2. auto.
    - exists (Two t). cbn [in_range build]. rewrite B. auto.
    - exists (Three t). cbn [in_range build]. rewrite B. auto.
    - exists (Four t). cbn [in_range build]. rewrite B. auto.
    - exists (Five t). cbn [in_range build]. rewrite B. auto.
    - exists (Six t). cbn [in_range build]. rewrite B. auto.
    - exists (Split t1 t2). cbn [in_range build]. rewrite E1, E2. auto.
    - exists (Rad4 len). auto.
    - exists (Rader t). cbn [in_range build]. rewrite B. cbn [bind]. split; [split|]; auto.
      apply raders_len in E. destruct E as [E _]. rewrite E in S. apply build_len in B. rewrite <- B. exact S.
  Qed.
  Lemma build_modest t (d : Dht T) : in_range t -> build m t = Ok d -> modest_pos d.
  Proof. intros I E. apply (assembled_modest m ranged); [intros d' []|]. eapply build_assembled; eauto. Qed.
End Trees.

Section Tree.
  Context {V : Type} (Fm : fmt V) (N : Num V) (RN : rounded Fm N) (m : profile).
  Notation u := (fu Fm). Notation tau := (ftau Fm). Notation rho := (frho Fm).
  Local Hint Extern 0 (Num V) => exact N : typeclass_instances.
  Let u0 : 0 <= u. Proof. apply (r_u _ _ RN). Qed.
  Let tau0 : 0 <= tau. Proof. apply (r_tau _ _ RN). Qed.
  Let rho0 : 0 <= rho. Proof. apply (r_rho _ _ RN). Qed.
  Definition f3 (a b c : nat) : R := (1 + u) ^ a * (1 + tau) ^ b * (1 + rho) ^ c.
  Lemma f3_mono a b c a' b' c' : (a <= a')%nat -> (b <= b')%nat -> (c <= c')%nat -> f3 a b c <= f3 a' b' c'.
  Proof.
    intros. unfold f3. assert (P : forall v n, 0 <= v -> 0 <= (1 + v) ^ n) by (intros; apply pow_le; lra).
    apply Rmult_le_compat; auto using Rmult_le_pos; [apply Rmult_le_compat; auto|]; apply Rle_pow; auto; lra.
  Qed.
  Lemma f3_eq a b c v a' b' c' : v = f3 a b c -> a = a' -> b = b' -> c = c' -> v = f3 a' b' c'.
  Proof. now intros -> -> -> ->. Qed.
  Let zero_or (k : nat) (d : Dht V) apply phi G : (0 < k)%nat -> modest_pos d -> 1 <= phi -> sqrt 2 <= G ->
    (fits k d -> approximates Fm N (nxn k d apply) phi G) -> approximates Fm N (nxn k d apply) phi G.
  Proof.
    intros Hk M P Q H. destruct (Nat.eq_dec (dht_len d) 0) as [Z|Z].
    - apply (approx_zero Fm N _ (fun x => x)); auto; [apply nxn_zero; auto|]. change (dht_len (nxn k d apply)) with (k * dht_len d)%nat. lia.
    - apply H, fits_modest; auto. apply M. lia.
  Qed.
  Lemma f3_1 a b c : 1 <= f3 a b c.
  Proof. replace 1 with (f3 0 0 0) by (unfold f3; simpl; lra). apply f3_mono; lia. Qed.
  Lemma fac_f3 a b : fac u tau a b = f3 a b 0.
  Proof. unfold fac, f3. simpl. ring. Qed.
  Ltac pw := unfold f3, fac; rewrite ?pow_add; simpl; ring.

  Lemma usz_le a b : (a <= b)%nat -> usz b -> usz a.
  Proof. unfold usz. lia. Qed.
  Lemma repr_len (t : tree) : representable Fm t -> usz (8 * tree_len t).
  Proof. destruct t; apply proj1. Qed.
  Lemma tree_ap t d : in_range t -> representable Fm t -> build m t = Ok d -> approximates Fm N d (tree_phi u tau rho t) (gain t).
  Proof.
    revert d. assert (TP : forall t, tree_phi u tau rho t = let '(a, b, c) := roundings t in f3 a b c) by reflexivity.
    pose proof sqrt2_bounds as s2.
    induction t; intros d I Rp E; rewrite TP in *; pose proof (repr_len _ Rp) as Us; cbn [build in_range representable roundings gain] in *; destruct Rp as [_ Rp];
      try (destruct (build m t) as [d1| | |] eqn:B; cbn [bind] in E; try discriminate);
      try (destruct (build m t1) as [d1| | |] eqn:B1; cbn [bind] in E; try discriminate;
           destruct (build m t2) as [d2| | |] eqn:B2; cbn [bind] in E; try discriminate; destruct I as [I1 I2]; destruct Rp as [R1 R2];
           specialize (IHt1 _ I1 R1 eq_refl); specialize (IHt2 _ I2 R2 eq_refl);
           pose proof (build_len m t1 _ B1) as LB1; pose proof (build_len m t2 _ B2) as LB2;
           destruct (roundings t1) as [[a1 b1] c1]; destruct (roundings t2) as [[a2 b2] c2]).
    1-10: injection E as <-; rewrite <- fac_f3.
    1: { eapply naive_ap; [exact RN|]. revert Us. apply usz_le. cbn [tree_len]. lia. }
    1: eapply bf1_ap; exact RN. 1: eapply bf2_ap; exact RN. 1: eapply bf3_ap; exact RN. 1: eapply bf4_ap; exact RN.
    1: eapply bf5_ap; exact RN. 1: eapply bf6_ap; exact RN. 1: eapply bf8_ap; exact RN. 1: eapply bf9_ap; exact RN. 1: eapply bf16_ap; exact RN.
    1: { injection E as <-. replace (f3 _ _ _) with (f3 a2 b2 c2 * f3 a1 b1 c1 * (1 + rho) * fac u tau 4 1) by pw.
         eapply mixed_ap; [exact RN| |exact IHt1|exact IHt2]. rewrite LB1, LB2. revert Us. apply usz_le. cbn [tree_len]. lia. }
    all: try (specialize (IHt _ I Rp eq_refl); pose proof (build_modest m t _ I B) as MO; pose proof (build_len m t _ B) as LB;
      destruct (roundings t) as [[a b] c]; cbn [tree_len] in Us; rewrite <- LB in Us;
      injection E as <-; destruct IHt as (P1 & P2 & P3); assert (IHt := conj P1 (conj P2 P3) : approximates Fm N _ _ _);
      clear P3; apply zero_or; [lia|exact MO|apply f3_1|nra|intros FI]).
    1: { replace (f3 _ _ _) with (f3 a b c * fac u tau 3 1) by pw. apply (two_ap Fm N RN d1); auto. revert Us; apply usz_le; lia. }
    1: { replace (f3 _ _ _) with (f3 a b c * fac u tau 4 1 * (1 + rho) * fac u tau 4 1) by pw. apply (three_ap Fm N RN d1); auto. revert Us; apply usz_le; lia. }
    1: { replace (f3 _ _ _) with (f3 a b c * fac u tau 4 1) by pw. apply (four_ap Fm N RN d1); auto. revert Us; apply usz_le; lia. }
    1: { replace (f3 _ _ _) with (f3 a b c * fac u tau 5 1 * (1 + rho) * fac u tau 4 1) by pw. apply (five_ap Fm N RN d1); auto. revert Us; apply usz_le; lia. }
    1: { replace (f3 _ _ _) with (f3 a b c * fac u tau 7 2 * (1 + rho) * fac u tau 4 1) by pw. apply (six_ap Fm N RN d1); auto. revert Us; apply usz_le; lia. }
    - destruct (split_radix_len _ _ _ E) as (L1 & L2 & L3 & L4).
      pose proof (build_modest m t1 _ I1 B1) as M1. pose proof (build_modest m t2 _ I2 B2) as M2.
      destruct (Nat.eq_dec (dht_len d1) 0) as [Z|Z].
      + apply (approx_zero Fm N _ (fun x => x)); [apply f3_1| | |lia].
        * destruct IHt2 as (_ & Q & _). eapply Rle_trans; [exact Q|apply Rmax_l].
        * eapply split_zero; eauto.
      + destruct (M1 ltac:(lia)) as [Q1 Q2]. destruct (M2 ltac:(lia)) as [H1 H2].
        assert (U4 : usz (dht_len d1 * 4)) by (rewrite LB1; revert Us; apply usz_le; cbn [tree_len]; lia).
        destruct (split_ap Fm N RN d1 d2 _ _ _ _ IHt1 IHt2 L1 U4 H1 ltac:(lia) Q2) as (d' & E' & O).
        rewrite E in E'. injection E' as <-. revert O. apply approx_mono; [|lra].
        apply Rmax_lub.
        * replace (f3 a2 b2 c2 * _) with (f3 (a2 + 1) b2 c2) by pw. apply f3_mono; lia.
        * replace (f3 a1 b1 c1 * _) with (f3 (a1 + 4) (b1 + 1) c1) by pw. apply f3_mono; lia.
    - destruct (radix4_pow _ _ E) as [k ->].
      destruct (radix4_upto64_ap Fm N RN k) as (d' & E' & O).
      { apply (Nat.pow_le_mono_r_iff 2); [lia|]. exact I. }
      rewrite E in E'. injection E' as <-. rewrite <- fac_f3. exact O.
    - destruct I as [I1 I2]. destruct Rp as [R1 R2]. specialize (IHt _ I1 R1 eq_refl). rewrite TP in R2. destruct (roundings t) as [[a b] c].
      destruct (raders_prime _ _ _ E) as [P L]. pose proof (build_len m t _ B) as L1.
      destruct (raders_ap Fm N RN m d1 _ _ IHt P L) as (D' & E' & O); [now rewrite L1|exact R2|].
      rewrite E in E'. injection E' as <-. rewrite L1 in O.
      replace (f3 _ _ _) with (f3 a b c * f3 a b c * f3 a b c * fac u tau 6 2) by pw. exact O.
  Qed.
End Tree.
