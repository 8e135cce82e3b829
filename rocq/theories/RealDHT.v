(** * Sums, angles, and the theory of the discrete Hartley transform *)
From Verif Require Export Spec.
From Verif Require Import Lemmas.
From Coq Require Import Reals Lra Lia List Arith.
Local Open Scope R_scope.

(** ** finite sums *)
Lemma rsum_ext n f g : (forall j, (j < n)%nat -> f j = g j) -> rsum n f = rsum n g.
Proof. induction n; intros H; simpl; auto. rewrite IHn, (H n) by (auto; intros; apply H; lia). reflexivity. Qed.

Lemma rsum_0 n : rsum n (fun _ => 0) = 0.
Proof. induction n; simpl; lra. Qed.

Lemma rsum_zero n f : (forall j, (j < n)%nat -> f j = 0) -> rsum n f = 0.
Proof. intros H. rewrite (rsum_ext n f (fun _ => 0)); auto using rsum_0. Qed.

Lemma rsum_add n f g : rsum n (fun j => f j + g j) = rsum n f + rsum n g.
Proof. induction n; simpl; [lra|]. rewrite IHn. lra. Qed.

Lemma rsum_sub n f g : rsum n (fun j => f j - g j) = rsum n f - rsum n g.
Proof. induction n; simpl; [lra|]. rewrite IHn. lra. Qed.

Lemma rsum_scal n a f : rsum n (fun j => a * f j) = a * rsum n f.
Proof. induction n; simpl; [lra|]. rewrite IHn. lra. Qed.

Lemma rsum_scal_r n a f : rsum n (fun j => f j * a) = rsum n f * a.
Proof. induction n; simpl; [lra|]. rewrite IHn. lra. Qed.

Lemma rsum_const n a : rsum n (fun _ => a) = INR n * a.
Proof. induction n; [simpl; lra|]. cbn [rsum]. rewrite IHn, S_INR. lra. Qed.

Lemma rsum_S_l n f : rsum (S n) f = f 0%nat + rsum n (fun j => f (S j)).
Proof. induction n; [simpl; lra|]. cbn [rsum] in *. rewrite IHn. lra. Qed.

Lemma rsum_app n m f : rsum (n + m) f = rsum n f + rsum m (fun j => f (n + j)%nat).
Proof.
  induction m; [rewrite Nat.add_0_r; simpl; lra|].
  rewrite Nat.add_succ_r. cbn [rsum]. rewrite IHm. lra.
Qed.

Lemma rsum_rev n f : rsum n f = rsum n (fun j => f (n - 1 - j)%nat).
Proof.
  revert f. induction n; intros f; auto. rewrite rsum_S_l, IHn. cbn [rsum].
  replace (S n - 1 - n)%nat with 0%nat by lia. rewrite Rplus_comm. f_equal.
  apply rsum_ext. intros j Hj. f_equal. lia.
Qed.

Lemma rsum_swap n m f : rsum n (fun i => rsum m (fun j => f i j)) = rsum m (fun j => rsum n (fun i => f i j)).
Proof.
  induction n; simpl; [now rewrite rsum_0|]. rewrite IHn. now rewrite <- rsum_add.
Qed.

(** a sum over n*m split into strides: j = r + n*s *)
Lemma rsum_mul n m f : rsum (n * m) f = rsum m (fun s => rsum n (fun r => f (s * n + r)%nat)).
Proof.
  induction m; [now rewrite Nat.mul_0_r|].
  rewrite Nat.mul_succ_r, rsum_app. cbn [rsum]. rewrite IHm. f_equal. apply rsum_ext. intros. f_equal. lia.
Qed.

Lemma rsum_stride n m f : rsum (n * m) f = rsum n (fun r => rsum m (fun s => f (s * n + r)%nat)).
Proof. rewrite rsum_mul. apply rsum_swap. Qed.

(** sums agreeing on the pairs r, W-r *)
Lemma rsum_pairs W u v :
  u 0%nat = v 0%nat ->
  (forall r, (1 <= r < W)%nat -> u r + u (W - r)%nat = v r + v (W - r)%nat) ->
  rsum W u = rsum W v.
Proof.
  intros H0 Hp. destruct W; auto. rewrite !rsum_S_l, H0. f_equal.
  assert (D : rsum W (fun j => u (S j)) + rsum W (fun j => u (S j)) =
              rsum W (fun j => v (S j)) + rsum W (fun j => v (S j))).
  { rewrite (rsum_rev W (fun j => u (S j))) at 2. rewrite (rsum_rev W (fun j => v (S j))) at 2.
    rewrite <- !rsum_add. apply rsum_ext. intros j Hj.
    specialize (Hp (S j) ltac:(lia)). replace (S W - S j)%nat with (S (W - 1 - j)) in Hp by lia. exact Hp. }
  lra.
Qed.

Lemma rsum_single n k f : (k < n)%nat -> (forall j, (j < n)%nat -> j <> k -> f j = 0) -> rsum n f = f k.
Proof.
  revert k. induction n; intros k Hk H; [lia|]. cbn [rsum].
  destruct (Nat.eq_dec k n) as [->|].
  - rewrite rsum_zero; [lra|]. intros. apply H; lia.
  - rewrite (IHn k), (H n); [lra|lia|lia|lia|]. intros; apply H; lia.
Qed.

Lemma rsum_abs n f : Rabs (rsum n f) <= rsum n (fun j => Rabs (f j)).
Proof.
  induction n; simpl; [rewrite Rabs_R0; lra|].
  eapply Rle_trans; [apply Rabs_triang|]. lra.
Qed.

Lemma rsum_le n f g : (forall j, (j < n)%nat -> f j <= g j) -> rsum n f <= rsum n g.
Proof. induction n; intros H; simpl; [lra|]. specialize (IHn ltac:(intros; apply H; lia)). specialize (H n ltac:(lia)). lra. Qed.

Lemma rsum_nonneg n f : (forall j, (j < n)%nat -> 0 <= f j) -> 0 <= rsum n f.
Proof. intros H. rewrite <- (rsum_0 n). now apply rsum_le. Qed.

(** reindexing along a bijection of {0..n-1} *)
Lemma rsum_perm n (s t : nat -> nat) f :
  (forall j, (j < n)%nat -> (s j < n)%nat /\ t (s j) = j) ->
  (forall j, (j < n)%nat -> (t j < n)%nat /\ s (t j) = j) ->
  rsum n (fun j => f (s j)) = rsum n f.
Proof.
  intros Hs Ht.
  assert (E : forall j, (j < n)%nat -> f (s j) = rsum n (fun k => if Nat.eq_dec (s j) k then f k else 0)).
  { intros j Hj. rewrite (rsum_single n (s j)).
    - destruct Nat.eq_dec; congruence.
    - now apply Hs.
    - intros k Hk Hne. destruct Nat.eq_dec; congruence. }
  rewrite (rsum_ext _ _ _ E). rewrite rsum_swap. apply rsum_ext. intros k Hk.
  rewrite (rsum_single n (t k)).
  - destruct (Nat.eq_dec (s (t k)) k); auto. exfalso. apply n0. now apply Ht.
  - now apply Ht.
  - intros j Hj Hne. destruct (Nat.eq_dec (s j) k); auto. exfalso. apply Hne. subst. symmetry. now apply Hs.
Qed.

(** ** angles *)
Lemma cas_neg t : cas (- t) = cos t - sin t.
Proof. unfold cas. rewrite cos_neg, sin_neg. lra. Qed.

Lemma cas_plus a b : cas (a + b) = cos a * cas b + sin a * cas (- b).
Proof. rewrite cas_neg. unfold cas. rewrite cos_plus, sin_plus. lra. Qed.

Lemma cas_mul a b : cas a * cas b = cos (a - b) + sin (a + b).
Proof. unfold cas. rewrite cos_minus, sin_plus. lra. Qed.

Lemma ang_add n j k : ang n (j + k) = ang n j + ang n k.
Proof. unfold ang. rewrite plus_INR. lra. Qed.

Lemma ang_mul n j k : ang n (j * k) = INR j * ang n k.
Proof. unfold ang. rewrite mult_INR. lra. Qed.

Lemma ang_0 n : ang n 0 = 0.
Proof. unfold ang. simpl. lra. Qed.

Lemma ang_full n : (n <> 0)%nat -> ang n n = 2 * PI.
Proof. intros. unfold ang. field. now apply not_0_INR. Qed.

Lemma ang_scale n w k : (n <> 0)%nat -> (w <> 0)%nat -> ang (w * n) (w * k) = ang n k.
Proof. intros. unfold ang. rewrite !mult_INR. field. split; now apply not_0_INR. Qed.

Lemma ang_turns n m : (n <> 0)%nat -> ang n (m * n) = 2 * INR m * PI.
Proof. intros. rewrite ang_mul, ang_full by auto. lra. Qed.

Lemma cos_turn t m : cos (t + 2 * INR m * PI) = cos t.
Proof. apply cos_period. Qed.
Lemma sin_turn t m : sin (t + 2 * INR m * PI) = sin t.
Proof. apply sin_period. Qed.
Lemma cos_turn' t m : cos (2 * INR m * PI - t) = cos t.
Proof. rewrite <- cos_neg. replace (- (2 * INR m * PI - t)) with (t - 2 * INR m * PI) by lra.
  rewrite <- (cos_turn (t - 2 * INR m * PI) m). f_equal. lra. Qed.
Lemma sin_turn' t m : sin (2 * INR m * PI - t) = - sin t.
Proof. replace (2 * INR m * PI - t) with (- t + 2 * INR m * PI) by lra. rewrite sin_turn. apply sin_neg. Qed.

Lemma cos_ang_mod n k : (n <> 0)%nat -> cos (ang n (k mod n)) = cos (ang n k).
Proof.
  intros. rewrite (Nat.div_mod k n) at 2 by auto. rewrite Nat.add_comm, Nat.mul_comm, ang_add, ang_turns by auto.
  now rewrite cos_turn.
Qed.
Lemma sin_ang_mod n k : (n <> 0)%nat -> sin (ang n (k mod n)) = sin (ang n k).
Proof.
  intros. rewrite (Nat.div_mod k n) at 2 by auto. rewrite Nat.add_comm, Nat.mul_comm, ang_add, ang_turns by auto.
  now rewrite sin_turn.
Qed.
Lemma cas_ang_mod n k : (n <> 0)%nat -> cas (ang n (k mod n)) = cas (ang n k).
Proof. intros. unfold cas. now rewrite cos_ang_mod, sin_ang_mod. Qed.

Lemma ang_mod_eq n j k : (n <> 0)%nat -> j mod n = k mod n -> cos (ang n j) = cos (ang n k) /\ sin (ang n j) = sin (ang n k).
Proof. intros Hn E. rewrite <- (cos_ang_mod n j), <- (sin_ang_mod n j), E, cos_ang_mod, sin_ang_mod; auto. Qed.

(** j and k opposite mod n *)
Lemma ang_opp n j k m : (n <> 0)%nat -> (j + k = m * n)%nat ->
  cos (ang n k) = cos (ang n j) /\ sin (ang n k) = - sin (ang n j).
Proof.
  intros Hn E. assert (E' : ang n k = 2 * INR m * PI - ang n j).
  { rewrite <- ang_turns with (n := n) by auto. rewrite <- E, ang_add. lra. }
  rewrite E'. split; [apply cos_turn'|apply sin_turn'].
Qed.
Lemma cas_opp n j k m : (n <> 0)%nat -> (j + k = m * n)%nat -> cas (ang n k) = cas (- ang n j).
Proof. intros Hn E. destruct (ang_opp n j k m Hn E) as [E1 E2]. rewrite cas_neg. unfold cas. rewrite E1, E2. lra. Qed.

(** ** the transform as a function of the angle *)
Definition csum n (x : nat -> R) t := rsum n (fun j => x j * cos (INR j * t)).
Definition ssum n (x : nat -> R) t := rsum n (fun j => x j * sin (INR j * t)).
Definition hart n (x : nat -> R) t := rsum n (fun j => x j * cas (INR j * t)).

Lemma hart_cs n x t : hart n x t = csum n x t + ssum n x t.
Proof. unfold hart, csum, ssum, cas. rewrite <- rsum_add. apply rsum_ext. intros. lra. Qed.
Lemma hart_neg n x t : hart n x (- t) = csum n x t - ssum n x t.
Proof.
  unfold hart, csum, ssum. rewrite <- rsum_sub. apply rsum_ext. intros.
  replace (INR j * - t) with (- (INR j * t)) by lra. rewrite cas_neg. lra.
Qed.

Lemma dht_at_hart x k : dht_at x k = hart (length x) (fun j => nth j x 0) (ang (length x) k).
Proof. unfold dht_at, hart. apply rsum_ext. intros. now rewrite ang_mul. Qed.

Lemma dht_spec_length x : length (dht_spec x) = length x.
Proof. unfold dht_spec. now rewrite map_length, seq_length. Qed.

Lemma nth_dht_spec x k : (k < length x)%nat -> nth k (dht_spec x) 0 = dht_at x k.
Proof. intros. unfold dht_spec. now rewrite nth_map_seq. Qed.

Lemma dht_spec_ext x y : length y = length x ->
  (forall k, (k < length x)%nat -> nth k y 0 = dht_at x k) -> y = dht_spec x.
Proof.
  intros L H. apply (nth_list_ext 0).
  - now rewrite dht_spec_length.
  - intros k Hk. rewrite nth_dht_spec by lia. apply H. lia.
Qed.

(** shifting the angle by whole turns of each sample *)
Lemma hart_turn n x t t' m : (t' = t + 2 * INR m * PI) -> hart n x t' = hart n x t.
Proof.
  intros ->. unfold hart, cas. apply rsum_ext. intros.
  replace (INR j * (t + 2 * INR m * PI)) with (INR j * t + 2 * INR (j * m) * PI) by (rewrite mult_INR; lra).
  now rewrite cos_turn, sin_turn.
Qed.

(** ** decimation: hart of length W*H from the W residue classes *)
Lemma hart_decimate W H x t :
  hart (W * H) x t =
  rsum W (fun r => cos (INR r * t) * hart H (fun s => x (s * W + r)%nat) (INR W * t)
                 + sin (INR r * t) * hart H (fun s => x (s * W + r)%nat) (- (INR W * t))).
Proof.
  unfold hart at 1. rewrite rsum_stride. apply rsum_ext. intros r Hr. unfold hart.
  rewrite <- !rsum_scal, <- rsum_add. apply rsum_ext. intros s Hs.
  rewrite plus_INR, mult_INR.
  replace ((INR s * INR W + INR r) * t) with (INR r * t + INR s * (INR W * t)) by lra.
  rewrite cas_plus. replace (INR s * - (INR W * t)) with (- (INR s * (INR W * t))) by lra. lra.
Qed.

(** reversed input *)
Lemma hart_rev n x t m : INR n * t = 2 * INR m * PI \/ INR n * t = - (2 * INR m * PI) ->
  hart n (fun j => x (n - 1 - j)%nat) t = cos t * hart n x (- t) - sin t * hart n x t.
Proof.
  intros Hm. unfold hart. rewrite <- !rsum_scal, <- rsum_sub. rewrite rsum_rev. apply rsum_ext. intros j Hj.
  replace (n - 1 - (n - 1 - j))%nat with j by lia.
  assert (E : cas (INR (n - 1 - j) * t) = cas (- (INR j * t + t))).
  { replace (INR (n - 1 - j)) with (INR n - INR j - 1).
    2:{ rewrite !minus_INR by lia. simpl. lra. }
    replace ((INR n - INR j - 1) * t) with (INR n * t + - (INR j * t + t)) by lra.
    set (u := - (INR j * t + t)).
    destruct Hm as [-> | ->]; unfold cas.
    - rewrite (Rplus_comm _ u), cos_turn, sin_turn. auto.
    - rewrite <- (cos_turn (_ + _) m), <- (sin_turn (_ + _) m).
      now replace (- (2 * INR m * PI) + u + 2 * INR m * PI) with u by lra. }
  rewrite E, cas_neg. replace (INR j * - t) with (- (INR j * t)) by lra. rewrite cas_neg. unfold cas.
  rewrite cos_plus, sin_plus. lra.
Qed.

(** ** orthogonality *)
Lemma cos_sum_telescope n t :
  2 * sin (t / 2) * rsum n (fun k => cos (INR k * t)) = sin ((INR n - / 2) * t) + sin (t / 2).
Proof.
  induction n.
  - simpl. replace ((0 - / 2) * t) with (- (t / 2)) by lra. rewrite sin_neg. lra.
  - cbn [rsum]. rewrite Rmult_plus_distr_l, IHn, S_INR.
    replace ((INR n + 1 - / 2) * t) with (INR n * t + t / 2) by lra.
    replace ((INR n - / 2) * t) with (INR n * t - t / 2) by lra.
    rewrite sin_plus, sin_minus. lra.
Qed.
Lemma sin_sum_telescope n t :
  2 * sin (t / 2) * rsum n (fun k => sin (INR k * t)) = cos (t / 2) - cos ((INR n - / 2) * t).
Proof.
  induction n.
  - simpl. replace ((0 - / 2) * t) with (- (t / 2)) by lra. rewrite cos_neg. lra.
  - cbn [rsum]. rewrite Rmult_plus_distr_l, IHn, S_INR.
    replace ((INR n + 1 - / 2) * t) with (INR n * t + t / 2) by lra.
    replace ((INR n - / 2) * t) with (INR n * t - t / 2) by lra.
    rewrite cos_plus, cos_minus. lra.
Qed.

Lemma half_turn_sin n d : (0 < d < n)%nat -> sin (ang n d / 2) <> 0.
Proof.
  intros Hd. apply Rgt_not_eq. assert (0 < INR d < INR n) by (split; [apply lt_0_INR|apply lt_INR]; lia).
  pose proof PI_RGT_0.
  assert (E : ang n d / 2 = PI * (INR d / INR n)) by (unfold ang; field; lra).
  assert (0 < INR d / INR n < 1).
  { split; [apply Rdiv_lt_0_compat; lra|]. apply Rmult_lt_reg_r with (INR n); [lra|]. unfold Rdiv.
    rewrite Rmult_assoc, Rinv_l by lra. lra. }
  apply sin_gt_0; rewrite E; nra.
Qed.

Lemma cos_sum_zero n d : (0 < d < n)%nat -> rsum n (fun k => cos (INR k * ang n d)) = 0.
Proof.
  intros Hd. pose proof (half_turn_sin n d Hd) as Hs. pose proof (cos_sum_telescope n (ang n d)) as T.
  assert (E : sin ((INR n - / 2) * ang n d) = - sin (ang n d / 2)).
  { replace ((INR n - / 2) * ang n d) with (2 * INR d * PI - ang n d / 2).
    - apply sin_turn'.
    - unfold ang. field. apply not_0_INR. lia. }
  rewrite E in T. assert (0 = 2 * sin (ang n d / 2) * rsum n (fun k => cos (INR k * ang n d))) as T' by lra.
  symmetry in T'. apply Rmult_integral in T'. destruct T'; [lra|auto].
Qed.
Lemma sin_sum_zero n d : (0 < d < n)%nat -> rsum n (fun k => sin (INR k * ang n d)) = 0.
Proof.
  intros Hd. pose proof (half_turn_sin n d Hd) as Hs. pose proof (sin_sum_telescope n (ang n d)) as T.
  assert (E : cos ((INR n - / 2) * ang n d) = cos (ang n d / 2)).
  { replace ((INR n - / 2) * ang n d) with (2 * INR d * PI - ang n d / 2).
    - apply cos_turn'.
    - unfold ang. field. apply not_0_INR. lia. }
  rewrite E in T. assert (0 = 2 * sin (ang n d / 2) * rsum n (fun k => sin (INR k * ang n d))) as T' by lra.
  symmetry in T'. apply Rmult_integral in T'. destruct T'; [lra|auto].
Qed.
(** all multiples *)
Lemma cos_sum_all n d : (n <> 0)%nat -> rsum n (fun k => cos (ang n (k * d))) = if (d mod n =? 0)%nat then INR n else 0.
Proof.
  intros Hn. assert (E : forall k, cos (ang n (k * d)) = cos (INR k * ang n (d mod n))).
  { intros k. rewrite <- ang_mul. apply ang_mod_eq; auto. now rewrite Nat.mul_mod_idemp_r. }
  rewrite (rsum_ext _ _ (fun k => cos (INR k * ang n (d mod n)))) by auto.
  destruct (Nat.eqb_spec (d mod n) 0) as [E0|E0].
  - rewrite E0. rewrite (rsum_ext _ _ (fun _ => 1)).
    + rewrite rsum_const. lra.
    + intros. rewrite ang_0, Rmult_0_r. apply cos_0.
  - apply cos_sum_zero. pose proof (Nat.mod_upper_bound d n Hn). lia.
Qed.
Lemma sin_sum_all n d : (n <> 0)%nat -> rsum n (fun k => sin (ang n (k * d))) = 0.
Proof.
  intros Hn. assert (E : forall k, sin (ang n (k * d)) = sin (INR k * ang n (d mod n))).
  { intros k. rewrite <- ang_mul. apply ang_mod_eq; auto. now rewrite Nat.mul_mod_idemp_r. }
  rewrite (rsum_ext _ _ (fun k => sin (INR k * ang n (d mod n)))) by auto.
  destruct (Nat.eqb_spec (d mod n) 0) as [E0|E0].
  - rewrite E0. apply rsum_zero. intros. rewrite ang_0, Rmult_0_r. apply sin_0.
  - apply sin_sum_zero. pose proof (Nat.mod_upper_bound d n Hn). lia.
Qed.

Lemma cas_orthogonal n i j : (i < n)%nat -> (j < n)%nat ->
  rsum n (fun k => cas (ang n (i * k)) * cas (ang n (k * j))) = if (i =? j)%nat then INR n else 0.
Proof.
  intros Hi Hj.
  assert (E : forall k, (k < n)%nat -> cas (ang n (i * k)) * cas (ang n (k * j)) =
    cos (ang n (k * (i + n - j))) + sin (ang n (k * (i + j)))).
  { intros k Hk. rewrite cas_mul. f_equal.
    - replace (ang n (k * (i + n - j))) with ((ang n (i * k) - ang n (k * j)) + 2 * INR k * PI).
      + now rewrite cos_turn.
      + rewrite !ang_mul, <- ang_turns with (n := n) by lia.
        assert (ang n (i + n - j) = ang n i + ang n n - ang n j).
        { rewrite <- ang_add. replace (i + n)%nat with ((i + n - j) + j)%nat at 2 by lia. rewrite ang_add. lra. }
        rewrite ang_mul, H. unfold ang. lra.
    - f_equal. rewrite <- ang_add. f_equal. lia. }
  rewrite (rsum_ext _ _ _ E), rsum_add, cos_sum_all, sin_sum_all by lia.
  destruct (Nat.eqb_spec i j) as [->|Ne].
  - replace (j + n - j)%nat with n by lia. rewrite Nat.mod_same by lia. simpl. lra.
  - destruct (Nat.eqb_spec ((i + n - j) mod n) 0) as [Z|Z]; [exfalso|lra].
    apply Nat.mod_divides in Z as [c Hc]; [|lia]. destruct c as [|[|c]]; nia.
Qed.
