(** * Proofs of the properties in PropsPlan.v *)
From Verif Require Export PlanSpec Proc Api.
From Verif Require Import PropsMathProof PropsNewProof PropsProcProof PropsExactProof PropsContractProof PropsParamProof PropsDebugProof NumTheory MathProofs FloatTree NewAgree Spec.
From Coq Require Import NArith Reals Arith Lia.

Lemma smooth_divides b a n : smooth b (N.of_nat n) -> Nat.divide a n -> smooth b (N.of_nat a).
Proof.
  intros S [c ->] p P D. apply S; auto. rewrite Nat2N.inj_mul. now apply N.divide_mul_r.
Qed.
Lemma prime_of_nat p : std_prime p -> nprime (N.of_nat p).
Proof. intros P. apply nprime_nat. now rewrite Nat2N.id. Qed.
Lemma smooth_le b n : (0 < n)%N -> (n <= b)%N -> smooth b n.
Proof. intros Z H p _ D. apply N.divide_pos_le in D; lia. Qed.

(** a composition together with what it needs *)
Definition planned (b : N) n t : Prop := naive_free t /\ in_range t /\ tree_len t = n /\
  (forall bytes size, (N.of_nat n * size <= bytes)%N -> within bytes size t) /\
  ((b <= 2 ^ 16)%N -> forall W : width, raders_fit t) /\
  forall T (NT : Num T) m, exists d, build m t = Ok d.

Lemma plan_leaf c n t : naive_free t -> in_range t -> tree_len t = n ->
  (forall bytes size, (N.of_nat (tree_len t) * size <= bytes)%N -> within bytes size t) ->
  (forall W : width, raders_fit t) -> (forall T (NT : Num T) m, exists d, build m t = Ok d) -> planned c n t.
Proof. intros A B <- C E D. now repeat (split; auto). Qed.

Lemma plan_mixed c a b s t : 0 < a -> 0 < b -> planned c a s -> planned c b t -> planned c (a * b) (Mixed s t).
Proof.
  intros Pa Pb (N1 & I1 & L1 & W1 & F1 & B1) (N2 & I2 & L2 & W2 & F2 & B2). split; [split; auto|]. split; [split; auto|].
  split; [cbn [tree_len]; now rewrite L1, L2|]. split.
  - intros bytes size H. cbn [within tree_len]. rewrite L1, L2. split; [exact H|].
    rewrite Nat2N.inj_mul in H.
    split; [apply W1|apply W2]; (eapply N.le_trans; [|exact H]); apply N.mul_le_mono_r; nia.
  - split; [split; auto|]. intros T NT m. destruct (B1 T NT m) as [d1 E1]. destruct (B2 T NT m) as [d2 E2].
    cbn [build]. rewrite E1. cbn [bind]. rewrite E2. cbn [bind]. eauto.
Qed.
Lemma plan_rader c p t : std_prime p -> p <> 2 -> (c <= 2 ^ 32)%N -> (N.of_nat p <= c)%N -> planned c (p - 1) t -> planned c p (Rader t).
Proof.
  intros P P2 Pc Pp (N1 & I1 & L1 & W1 & F1 & B1). assert (Ps : (N.of_nat p <= 2 ^ 32)%N) by lia. pose proof (std_prime_ge2 p P) as G.
  assert (L : tree_len t + 1 = p) by lia.
  split; [exact N1|]. split; [split; [exact I1|now rewrite L]|]. split; [exact L|]. split.
  - intros bytes size H. cbn [within tree_len]. rewrite L. split; [exact H|]. apply W1.
    eapply N.le_trans; [|exact H]. apply N.mul_le_mono_r. lia.
  - split.
    { intros H W. split; [now apply F1|]. apply small_fits. change (tree_len (Rader t)) with (tree_len t + 1). rewrite L. lia. }
    intros T NT m. destruct (B1 T NT m) as [d E]. destruct (tree_transforms T NT m t d I1 E) as [f F].
    pose proof (build_len m t d E) as K.
    destruct (C27_rader_proof m d f F) as [_ H]; [lia|rewrite K, L; exact Ps|].
    destruct H as [D ED]; [rewrite K, L; now apply prime_of_nat|]. exists D. cbn [build]. rewrite E. exact ED.
Qed.

Lemma plan_exists b n : (b <= 2 ^ 32)%N -> 0 < n -> smooth b (N.of_nat n) -> exists t, planned b n t.
Proof.
  intros Hb.  induction n as [n IH] using lt_wf_ind. intros Z S.
  destruct (Nat.eq_dec n 1) as [->|N1].
  { exists Fly1. apply plan_leaf; cbn; auto; eauto. }
  destruct (Nat.eq_dec n 2) as [->|N2].
  { exists Fly2. apply plan_leaf; cbn; auto; eauto. }
  destruct (prime_divisor n ltac:(lia)) as (q & Q & [c Hc]). pose proof (std_prime_ge2 q Q) as G.
  destruct (Nat.eq_dec c 1) as [->|C1].
  - rewrite Nat.mul_1_l in Hc. subst q.
    assert (Ps : (N.of_nat n <= b)%N) by (apply S; [now apply prime_of_nat|exists 1%N; lia]).
    destruct (IH (n - 1)) as [t Ht]; [lia|lia|apply smooth_le; lia|].
    exists (Rader t). now apply plan_rader.
  - assert (c <> 0) by (intros ->; lia).
    destruct (IH c) as [s Hs]; [nia|lia|apply (smooth_divides _ _ n); auto; exists q; lia|].
    destruct (IH q) as [t Ht]; [nia|lia|apply (smooth_divides _ _ n); auto; exists c; lia|].
    exists (Mixed s t). rewrite Hc. apply plan_mixed; auto; lia.
Qed.

Lemma C70_every_proof n : 0 < n -> smooth (2 ^ 32) (N.of_nat n) ->
  exists t, naive_free t /\ in_range t /\ tree_len t = n /\
    (forall T (NT : Num T) m, exists d f, build m t = Ok d /\ dht_len d = n /\ transforms d f) /\
    (forall m, exists d, @build R (RNum rh) m t = Ok d /\ transforms d dht_spec).
Proof.
  intros Z S. destruct (plan_exists _ n (N.le_refl _) Z S) as (t & A & I & L & W & _ & B). exists t. do 3 (split; [assumption|]). split.
  - intros T NT m. destruct (B T NT m) as [d E]. destruct (tree_transforms T NT m t d I E) as [f F].
    exists d, f. split; [exact E|]. split; [now rewrite (build_len m t d E)|exact F].
  - intros m. destruct (B R (RNum rh) m) as [d E]. exists d. split; [exact E|].
    apply (C12_proof m ranged); [intros ? []|auto|auto|]. now apply build_ranged with t.
Qed.
Lemma C70_run_proof (W : width) n size : 0 < n -> smooth (rader_limit W) (N.of_nat n) -> (4 <= size)%N -> (N.of_nat n * size <= ample)%N ->
  exists t, naive_free t /\ in_range t /\ tree_len t = n /\ within ample size t /\
    (forall T (NT : Num T) m, exists d f, run_tree m size t = Ok d /\ dht_len d = n /\ transforms d f) /\
    (forall m, exists d, @run_tree W R (RNum rh) m size t = Ok d /\ transforms d dht_spec).
Proof.
  intros Z S S4 H. assert (Lm : (rader_limit W <= 2 ^ 32)%N) by (destruct W; discriminate).
  destruct (plan_exists _ n Lm Z S) as (t & A & I & L & Hw & Hf & B). exists t. do 3 (split; [assumption|]).
  pose proof (Hw _ _ H) as W'. split; [exact W'|].
  assert (Fit : raders_fit t) by (destruct W; [apply Hf; discriminate|apply raders_fit_64]).
  assert (S60 : (size <= ample)%N).
  { apply N.le_trans with (N.of_nat n * size)%N; [|exact H]. rewrite <- (N.mul_1_l size) at 1. apply N.mul_le_mono_r. lia. }
  split.
  - intros T NT m. destruct (B T NT m) as [d E]. destruct (tree_transforms T NT m t d I E) as [f F].
    exists d, f. split; [rewrite C55_complete_proof; auto|]. split; [now rewrite (build_len m t d E)|exact F].
  - intros m. destruct (B R (RNum rh) m) as [d E]. exists d. split; [rewrite C55_complete_proof; auto|].
    apply (C12_proof m ranged); [intros ? []|auto|auto|]. now apply build_ranged with t.
Qed.

(** ** the converse *)
Lemma smooth_mul b m n : smooth b m -> smooth b n -> smooth b (m * n).
Proof. intros A B p P D. apply nprime_mul in D as [D|D]; auto. Qed.
Lemma smooth_pow2 b k : (2 <= b)%N -> smooth b (N.of_nat (2 ^ k)).
Proof.
  intros B. induction k as [|k IH].
  - intros p [P _] D. apply N.divide_1_r in D. lia.
  - rewrite Nat.pow_succ_r', Nat2N.inj_mul. apply smooth_mul; [|exact IH]. now apply smooth_le.
Qed.
Lemma C70_only_proof T (NT : Num T) t : forall d : Dht T, naive_free t -> lengths64 t -> build Debug t = Ok d ->
  0 < tree_len t /\ smooth (2 ^ 32) (N.of_nat (tree_len t)).
Proof.
  induction t; intros d F L E; cbn [build naive_free lengths64] in *; destruct L as [L L'];
    try (destruct (build Debug t) as [d1| | |] eqn:B; cbn [bind] in E; try discriminate);
    try (destruct (build Debug t1) as [d1| | |] eqn:B1; cbn [bind] in E; try discriminate;
         destruct (build Debug t2) as [d2| | |] eqn:B2; cbn [bind] in E; try discriminate).
  1: contradiction.
  1-9: cbn [tree_len]; split; [lia|]; apply smooth_le; [reflexivity|discriminate].
  all: try (destruct (IHt _ F L' eq_refl) as [Z S]; cbn [tree_len]; split; [lia|];
            rewrite Nat2N.inj_mul; apply smooth_mul; [apply smooth_le; [reflexivity|discriminate]|exact S]).
  - destruct F as [F1 F2], L' as [L1 L2]. destruct (IHt1 _ F1 L1 eq_refl) as [Z1 S1]. destruct (IHt2 _ F2 L2 eq_refl) as [Z2 S2].
    cbn [tree_len]. split; [nia|]. rewrite Nat2N.inj_mul. now apply smooth_mul.
  - destruct F as [F1 F2], L' as [L1 L2]. destruct (IHt1 _ F1 L1 eq_refl) as [Z1 S1].
    cbn [tree_len]. split; [lia|]. rewrite Nat2N.inj_mul. apply smooth_mul; [exact S1|]. apply smooth_le; [reflexivity|discriminate].
  - cbn [tree_len]. destruct (@C27_radix4_proof T NT len) as [[_ H] _].
    assert (K : exists k, len = 2 ^ k).
    { destruct (Nat.eq_dec len (2 ^ Nat.log2 len)) as [|Ne]; [eauto|]. exfalso.
      assert (Q : @radix4 T NT len = Panic); [|congruence]. apply H. intros k ->. rewrite Nat.log2_pow2 in Ne; lia. }
    destruct K as [k ->]. split; [apply Nat.neq_0_lt_0, Nat.pow_nonzero; lia|]. apply smooth_pow2. discriminate.
  - cbn [tree_len] in *. pose proof (build_len Debug t d1 B) as K. destruct (raders_len _ _ _ E) as [LD _].
    destruct (C53_rader_proof T NT d1 d) as [P [P3 Ps]]; [rewrite K; lia|exact E|].
    rewrite LD, K in *. split; [lia|]. apply smooth_le; [lia|exact Ps].
Qed.
Lemma C70_exactly_proof n : (0 < N.of_nat n < 2 ^ 64)%N ->
  (smooth (2 ^ 32) (N.of_nat n) <->
   exists t, naive_free t /\ lengths64 t /\ tree_len t = n /\ forall T (NT : Num T), exists d, build Debug t = Ok d).
Proof.
  intros [Z U]. split.
  - intros S. destruct (plan_exists _ n (N.le_refl _) ltac:(lia) S) as (t & A & I & L & W & _ & B). exists t. split; [exact A|].
    split; [|split; [exact L|intros T NT; apply B]].
    assert (G : forall t, within (2 ^ 64 - 1) 1 t -> lengths64 t).
    { clear. induction t; cbn [within lengths64]; intros [H R]; (split; [lia|]); tauto. }
    apply G, W. lia.
  - intros (t & A & L & <- & B). destruct (B unit (Build_Num unit tt (fun _ _ => tt) (fun _ _ => tt) (fun _ _ => tt) (fun _ => tt)
      (fun _ _ _ => tt) (fun _ _ _ => tt) tt tt (fun _ => tt))) as [d E]. now apply (C70_only_proof _ _ t d A L E).
Qed.
Lemma C70_case_proof : (smooth (2 ^ 32) (4294967291 * 4294967279) /\ nprime 4294967291 /\ nprime 4294967279) /\
  ~ smooth (2 ^ 32) (2 * 4294967311).
Proof.
  assert (P1 : nprime 4294967291) by (apply quick_prime; vm_compute; reflexivity).
  assert (P2 : nprime 4294967279) by (apply quick_prime; vm_compute; reflexivity).
  assert (P3 : nprime 4294967311) by (apply quick_prime; vm_compute; reflexivity).
  split; [split; [|now split]|].
  - apply smooth_mul; apply smooth_le; try reflexivity; discriminate.
  - intros S. specialize (S _ P3 ltac:(exists 2%N; reflexivity)). now apply S.
Qed.
