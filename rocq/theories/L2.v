(** * Euclidean norms of finite sequences *)
From Verif Require Import Lemmas RealDHT DHTTheory.
From Coq Require Import Reals Lra Lia List Arith Psatz.
Import ListNotations.
Local Open Scope R_scope.

Definition ss (n : nat) (f : nat -> R) : R := rsum n (fun j => f j * f j).
Definition nrm (n : nat) (f : nat -> R) : R := sqrt (ss n f).

Lemma sq0 a : 0 <= a * a.
Proof. nra. Qed.
Lemma ss0 n f : 0 <= ss n f.
Proof. apply rsum_nonneg. intros. apply sq0. Qed.
Lemma nrm0 n f : 0 <= nrm n f.
Proof. apply sqrt_pos. Qed.
Lemma nrm_sq n f : nrm n f * nrm n f = ss n f.
Proof. apply sqrt_sqrt, ss0. Qed.
Lemma ss_ext n f g : (forall j, (j < n)%nat -> f j = g j) -> ss n f = ss n g.
Proof. intros E. apply rsum_ext. intros. now rewrite E. Qed.
Lemma nrm_ext n f g : (forall j, (j < n)%nat -> f j = g j) -> nrm n f = nrm n g.
Proof. intros E. unfold nrm. now rewrite (ss_ext n f g). Qed.

Lemma sq_le_inv a b : 0 <= b -> a * a <= b * b -> a <= b.
Proof. intros. nra. Qed.
Lemma sqrt_le_of a b : 0 <= b -> a <= b * b -> sqrt a <= b.
Proof. intros B A. rewrite <- (sqrt_square b) by auto. now apply sqrt_le_1_alt. Qed.
Lemma ss_le_nrm n f b : 0 <= b -> ss n f <= b * b -> nrm n f <= b.
Proof. apply sqrt_le_of. Qed.
Lemma abs_sq_le a b : Rabs a <= b -> a * a <= b * b.
Proof. intros H. apply Rsqr_le_abs_1. rewrite (Rabs_pos_eq b); auto. pose proof (Rabs_pos a). lra. Qed.
Lemma ss_le n f g : (forall j, (j < n)%nat -> Rabs (f j) <= g j) -> ss n f <= ss n g.
Proof. intros H. apply rsum_le. intros. now apply abs_sq_le, H. Qed.
Lemma nrm_le n f g : (forall j, (j < n)%nat -> Rabs (f j) <= g j) -> nrm n f <= nrm n g.
Proof. intros H. apply sqrt_le_1_alt. now apply ss_le. Qed.

Lemma cauchy n f g : Rabs (rsum n (fun j => f j * g j)) <= nrm n f * nrm n g.
Proof.
  apply sq_le_inv; [apply Rmult_le_pos; apply nrm0|].
  replace (nrm n f * nrm n g * (nrm n f * nrm n g)) with (nrm n f * nrm n f * (nrm n g * nrm n g)) by ring.
  rewrite !nrm_sq, <- Rabs_mult, Rabs_pos_eq by apply sq0.
  induction n; [unfold ss; simpl; lra|]. unfold ss in *. cbn [rsum].
  set (s := rsum n (fun j => f j * g j)) in *. set (A := rsum n (fun j => f j * f j)) in *. set (B := rsum n (fun j => g j * g j)) in *.
  assert (HA : 0 <= A) by apply (ss0 n f). assert (HB : 0 <= B) by apply (ss0 n g).
  assert (2 * (s * (f n * g n)) <= A * (g n * g n) + B * (f n * f n)); [|nra].
  destruct (Rle_or_lt A 0) as [Z|P].
  - assert (s * s <= 0) by nra. assert (s = 0) by nra. subst s. rewrite H0. pose proof (sq0 (f n)). nra.
  - apply (Rmult_le_reg_l A); auto.
    (* A (A g^2 + B f^2 - 2 s f g) = (A g - s f)^2 + (AB - s^2) f^2 *)
    assert (0 <= (A * g n - s * f n) * (A * g n - s * f n) + (A * B - s * s) * (f n * f n)); [|nra].
    pose proof (sq0 (A * g n - s * f n)). pose proof (sq0 (f n)). assert (0 <= A * B - s * s) by lra. nra.
Qed.

(** the triangle inequality, with a constant K under the root *)
Lemma triangle_plus n f g K : 0 <= K -> sqrt (ss n (fun j => f j + g j) + K) <= sqrt (ss n f + K) + nrm n g.
Proof.
  intros HK. pose proof (ss0 n f). pose proof (sqrt_pos (ss n f + K)). pose proof (nrm0 n g).
  apply sqrt_le_of; [lra|].
  replace ((sqrt (ss n f + K) + nrm n g) * (sqrt (ss n f + K) + nrm n g))
    with (sqrt (ss n f + K) * sqrt (ss n f + K) + 2 * (sqrt (ss n f + K) * nrm n g) + nrm n g * nrm n g) by ring.
  rewrite sqrt_sqrt, nrm_sq by lra.
  assert (E : ss n (fun j => f j + g j) = ss n f + 2 * rsum n (fun j => f j * g j) + ss n g).
  { unfold ss. rewrite <- rsum_scal, <- !rsum_add. apply rsum_ext. intros. ring. }
  rewrite E. pose proof (cauchy n f g) as C. apply Rle_trans with (r1 := rsum n (fun j => f j * g j)) in C; [|apply Rle_abs].
  assert (nrm n f <= sqrt (ss n f + K)) by (apply sqrt_le_1_alt; lra).
  assert (nrm n f * nrm n g <= sqrt (ss n f + K) * nrm n g) by (apply Rmult_le_compat_r; auto). lra.
Qed.
Lemma minkowski n f g : nrm n (fun j => f j + g j) <= nrm n f + nrm n g.
Proof. pose proof (triangle_plus n f g 0 (Rle_refl 0)) as T. now rewrite !Rplus_0_r in T. Qed.

Lemma ss_scal n c f : ss n (fun j => c * f j) = c * c * ss n f.
Proof. unfold ss. rewrite <- rsum_scal. apply rsum_ext. intros. ring. Qed.
Lemma nrm_scal n c f : 0 <= c -> nrm n (fun j => c * f j) = c * nrm n f.
Proof. intros. unfold nrm. rewrite ss_scal, sqrt_mult by (try apply sq0; apply ss0). now rewrite sqrt_square. Qed.

Lemma sum_sq n f : rsum n f * rsum n f <= INR n * ss n f.
Proof.
  pose proof (cauchy n (fun _ => 1) f) as C. apply abs_sq_le in C.
  replace (nrm n (fun _ => 1) * nrm n f * (nrm n (fun _ => 1) * nrm n f)) with (nrm n (fun _ => 1) * nrm n (fun _ => 1) * (nrm n f * nrm n f)) in C by ring.
  rewrite !nrm_sq in C. unfold ss at 1 in C. rewrite rsum_const in C.
  rewrite (rsum_ext n _ f) in C by (intros; ring). lra.
Qed.
Lemma sum_le n f : rsum n f <= sqrt (INR n) * nrm n f.
Proof.
  apply sq_le_inv; [apply Rmult_le_pos; [apply sqrt_pos|apply nrm0]|].
  replace (sqrt (INR n) * nrm n f * (sqrt (INR n) * nrm n f)) with (sqrt (INR n) * sqrt (INR n) * (nrm n f * nrm n f)) by ring.
  rewrite sqrt_sqrt, nrm_sq by apply pos_INR. apply sum_sq.
Qed.
Lemma entry_le n f j : (j < n)%nat -> f j * f j <= ss n f.
Proof.
  induction n; [lia|]. intros H. unfold ss in *. cbn [rsum]. pose proof (sq0 (f n)). pose proof (ss0 n f) as P. unfold ss in P.
  destruct (Nat.eq_dec j n) as [->|]; [lra|]. specialize (IHn ltac:(lia)). lra.
Qed.

(** the transform multiplies norms by sqrt n *)
Lemma ss_dhtf n u : ss n (dhtf n u) = INR n * ss n u.
Proof. apply parseval. Qed.
Lemma dhtf_sub n u v k : dhtf n (fun j => u j - v j) k = dhtf n u k - dhtf n v k.
Proof. unfold dhtf. rewrite <- rsum_sub. apply rsum_ext. intros. ring. Qed.

(** ** grids of W rows and H columns *)
Definition grid (W H : nat) (F : nat -> nat -> R) : R := rsum W (fun r => rsum H (fun c => F r c)).
Lemma ss_grid W H f : ss (W * H) f = grid W H (fun r c => f (r * H + c)%nat * f (r * H + c)%nat).
Proof. unfold ss. rewrite Nat.mul_comm. apply rsum_mul. Qed.
Lemma grid_ext W H F G : (forall r c, (r < W)%nat -> (c < H)%nat -> F r c = G r c) -> grid W H F = grid W H G.
Proof. intros E. apply rsum_ext. intros r Hr. apply rsum_ext. intros c Hc. now apply E. Qed.
Lemma grid_le W H F G : (forall r c, (r < W)%nat -> (c < H)%nat -> F r c <= G r c) -> grid W H F <= grid W H G.
Proof. intros E. apply rsum_le. intros r Hr. apply rsum_le. intros c Hc. now apply E. Qed.
Lemma grid_add W H F G : grid W H (fun r c => F r c + G r c) = grid W H F + grid W H G.
Proof. unfold grid. rewrite <- rsum_add. apply rsum_ext. intros. apply rsum_add. Qed.
Lemma grid_scal W H a F : grid W H (fun r c => a * F r c) = a * grid W H F.
Proof. unfold grid. rewrite <- rsum_scal. apply rsum_ext. intros. apply rsum_scal. Qed.
Lemma grid_swap W H F : grid W H F = rsum H (fun c => rsum W (fun r => F r c)).
Proof. apply rsum_swap. Qed.

(** c -> -c *)
Definition mir (n c : nat) : nat := if (c =? 0)%nat then 0%nat else (n - c)%nat.
Lemma mir_lt n c : (c < n)%nat -> (mir n c < n)%nat.
Proof. unfold mir. destruct (Nat.eqb_spec c 0); lia. Qed.
Lemma mir_mir n c : (c < n)%nat -> mir n (mir n c) = c.
Proof. intros. unfold mir. destruct (Nat.eqb_spec c 0); [now subst|]. destruct (Nat.eqb_spec (n - c) 0); lia. Qed.
Lemma rsum_mir n f : rsum n (fun c => f (mir n c)) = rsum n f.
Proof. apply (rsum_perm n (mir n) (mir n)); intros; split; auto using mir_lt, mir_mir. Qed.
Lemma grid_mir_c W H F : grid W H (fun r c => F r (mir H c)) = grid W H F.
Proof. apply rsum_ext. intros r Hr. apply (rsum_mir H (fun c => F r c)). Qed.
Lemma grid_mir_r W H F : grid W H (fun r c => F (mir W r) c) = grid W H F.
Proof. rewrite !grid_swap. apply rsum_ext. intros c Hc. apply (rsum_mir W (fun r => F r c)). Qed.

(** an error at (q, c) bounded by the entries of the columns c and -c *)
Lemma grid_cols W H K E M : (forall q c, (q < W)%nat -> (c < H)%nat -> Rabs (E q c) <= K * rsum W (fun r => M r c + M r (mir H c))) ->
  grid W H (fun q c => E q c * E q c) <= (2 * INR W * K) * (2 * INR W * K) * grid W H (fun r c => M r c * M r c).
Proof.
  intros B.
  apply (Rle_trans _ (grid W H (fun q c => K * K * (INR W * (2 * (rsum W (fun r => M r c * M r c) + rsum W (fun r => M r (mir H c) * M r (mir H c)))))))).
  - apply grid_le. intros q c Hq Hc. apply (Rle_trans _ _ _ (abs_sq_le _ _ (B q c Hq Hc))).
    replace (K * rsum W (fun r => M r c + M r (mir H c)) * (K * rsum W (fun r => M r c + M r (mir H c))))
      with (K * K * (rsum W (fun r => M r c + M r (mir H c)) * rsum W (fun r => M r c + M r (mir H c)))) by ring.
    apply Rmult_le_compat_l; [apply sq0|]. apply (Rle_trans _ _ _ (sum_sq _ _)). apply Rmult_le_compat_l; [apply pos_INR|].
    unfold ss. rewrite <- rsum_add, <- rsum_scal. apply rsum_le. intros r Hr. pose proof (sq0 (M r c - M r (mir H c))). lra.
  - rewrite !grid_scal, grid_add.
    assert (E1 : grid W H (fun _ c => rsum W (fun r => M r c * M r c)) = INR W * grid W H (fun r c => M r c * M r c)).
    { unfold grid at 1. rewrite rsum_const. f_equal. symmetry. apply grid_swap. }
    assert (E2 : grid W H (fun _ c => rsum W (fun r => M r (mir H c) * M r (mir H c))) = INR W * grid W H (fun r c => M r c * M r c)).
    { rewrite <- (grid_mir_c W H (fun r c => M r c * M r c)). unfold grid at 1. rewrite rsum_const. f_equal. symmetry. apply grid_swap. }
    rewrite E1, E2. right. ring.
Qed.
(** an error at (r, c) bounded by the entries at (r, c), (r, -c), (-r, c), (-r, -c) *)
Lemma grid_four W H K E M : (forall r c, (r < W)%nat -> (c < H)%nat -> Rabs (E r c) <= K * (M r c + M r (mir H c) + M (mir W r) c + M (mir W r) (mir H c))) ->
  grid W H (fun q c => E q c * E q c) <= (4 * K) * (4 * K) * grid W H (fun r c => M r c * M r c).
Proof.
  intros B. pose (M2 r c := M r c * M r c).
  apply (Rle_trans _ (grid W H (fun r c => K * K * (4 * (M2 r c + M2 r (mir H c) + M2 (mir W r) c + M2 (mir W r) (mir H c)))))).
  - apply grid_le. intros r c Hr Hc. apply (Rle_trans _ _ _ (abs_sq_le _ _ (B r c Hr Hc))). unfold M2.
    set (a := M r c). set (b := M r (mir H c)). set (e := M (mir W r) c). set (f := M (mir W r) (mir H c)).
    replace (K * (a + b + e + f) * (K * (a + b + e + f))) with (K * K * ((a + b + e + f) * (a + b + e + f))) by ring.
    apply Rmult_le_compat_l; [apply sq0|].
    pose proof (sq0 (a - b)). pose proof (sq0 (a - e)). pose proof (sq0 (a - f)). pose proof (sq0 (b - e)). pose proof (sq0 (b - f)). pose proof (sq0 (e - f)). lra.
  - rewrite !grid_scal, !grid_add.
    rewrite (grid_mir_r W H (fun r c => M2 r (mir H c))), grid_mir_r, grid_mir_c. unfold M2. right. ring.
Qed.

Lemma INR1 n : (0 < n)%nat -> 1 <= INR n.
Proof. intros. apply (le_INR 1). lia. Qed.
Lemma sqrt1 n : (0 < n)%nat -> 1 <= sqrt (INR n).
Proof. intros. rewrite <- sqrt_1. apply sqrt_le_1_alt. now apply INR1. Qed.
