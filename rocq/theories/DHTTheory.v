(** * The discrete Hartley transform: involution, linearity, Parseval, symmetries, convolution *)
From Verif Require Import Lemmas RealDHT.
From Coq Require Import Reals Lra Lia List Arith.
Import ListNotations.
Local Open Scope R_scope.

(** the transform of a function on {0..n-1} *)
Definition dhtf (n : nat) (u : nat -> R) (k : nat) : R := rsum n (fun j => u j * cas (ang n (j * k))).

Lemma dht_at_dhtf x k : dht_at x k = dhtf (length x) (fun j => nth j x 0) k.
Proof. reflexivity. Qed.
Lemma dhtf_ext n u v k : (forall j, (j < n)%nat -> u j = v j) -> dhtf n u k = dhtf n v k.
Proof. intros E. apply rsum_ext. intros. now rewrite E. Qed.

Lemma dhtf_twice n u k : (k < n)%nat -> dhtf n (dhtf n u) k = INR n * u k.
Proof.
  intros Hk. unfold dhtf.
  rewrite (rsum_ext n _ (fun i => rsum n (fun j => u j * (cas (ang n (j * i)) * cas (ang n (i * k)))))).
  2:{ intros i Hi. rewrite <- rsum_scal_r. apply rsum_ext. intros. lra. }
  rewrite rsum_swap. rewrite (rsum_single n k); auto.
  - rewrite rsum_scal, cas_orthogonal, Nat.eqb_refl by auto. lra.
  - intros j Hj N. rewrite rsum_scal, cas_orthogonal by auto. apply Nat.eqb_neq in N. rewrite N. lra.
Qed.

Lemma dhtf_lin n a b u v k : dhtf n (fun j => a * u j + b * v j) k = a * dhtf n u k + b * dhtf n v k.
Proof. unfold dhtf. rewrite <- !rsum_scal, <- rsum_add. apply rsum_ext. intros. lra. Qed.

Lemma dhtf_zero n u : dhtf n u 0 = rsum n u.
Proof. apply rsum_ext. intros j Hj. rewrite Nat.mul_0_r, ang_0. unfold cas. rewrite cos_0, sin_0. lra. Qed.

Lemma dhtf_delta n k : (0 < n)%nat -> dhtf n (fun j => if (j =? 0)%nat then 1 else 0) k = 1.
Proof.
  intros. unfold dhtf. rewrite (rsum_single n 0); auto.
  - simpl. rewrite ang_0. unfold cas. rewrite cos_0, sin_0. lra.
  - intros j Hj N. apply Nat.eqb_neq in N. rewrite N. lra.
Qed.

Lemma parseval n u : rsum n (fun k => dhtf n u k * dhtf n u k) = INR n * rsum n (fun j => u j * u j).
Proof.
  (* sum_k U_k U_k = sum_k U_k sum_j u_j cas(jk) = sum_j u_j (dht U)_j *)
  rewrite (rsum_ext n _ (fun k => rsum n (fun j => u j * (dhtf n u k * cas (ang n (k * j)))))).
  - rewrite rsum_swap, <- rsum_scal. apply rsum_ext. intros j Hj. rewrite rsum_scal.
    change (rsum n (fun i => dhtf n u i * cas (ang n (i * j)))) with (dhtf n (dhtf n u) j).
    rewrite dhtf_twice by auto. lra.
  - intros k Hk. unfold dhtf at 2. rewrite <- rsum_scal. apply rsum_ext. intros j Hj.
    rewrite (Nat.mul_comm j k). lra.
Qed.

(** cosine and sine parts *)
Definition cpart n (u : nat -> R) k := rsum n (fun j => u j * cos (ang n (j * k))).
Definition spart n (u : nat -> R) k := rsum n (fun j => u j * sin (ang n (j * k))).

Lemma dhtf_parts n u k : dhtf n u k = cpart n u k + spart n u k.
Proof. unfold dhtf, cpart, spart, cas. rewrite <- rsum_add. apply rsum_ext. intros. lra. Qed.

Lemma neg_idx_lt n k : (0 < n)%nat -> (neg_idx n k < n)%nat.
Proof. intros. apply Nat.mod_upper_bound. lia. Qed.

Lemma neg_idx_angle n j k : (k <= n)%nat -> (0 < n)%nat ->
  cos (ang n (j * neg_idx n k)) = cos (ang n (j * k)) /\ sin (ang n (j * neg_idx n k)) = - sin (ang n (j * k)).
Proof.
  intros Hk Hn. unfold neg_idx.
  destruct (ang_mod_eq n (j * ((n - k) mod n)) (j * (n - k))) as [E1 E2]; [lia|apply Nat.mul_mod_idemp_r; lia|].
  rewrite E1, E2. apply (ang_opp n _ _ j); [lia|]. nia.
Qed.

Lemma dhtf_neg n u k : (k <= n)%nat -> dhtf n u (neg_idx n k) = cpart n u k - spart n u k.
Proof.
  intros Hk. destruct (Nat.eq_dec n 0) as [->|]; [unfold dhtf, cpart, spart; simpl; lra|].
  unfold dhtf, cpart, spart, cas. rewrite <- rsum_sub. apply rsum_ext. intros j Hj.
  destruct (neg_idx_angle n j k ltac:(lia) ltac:(lia)) as [-> ->]. lra.
Qed.

Lemma cas_shift n m j k : cas (ang n ((m + j) * k)) =
  cos (ang n (m * k)) * cas (ang n (j * k)) + sin (ang n (m * k)) * cas (- ang n (j * k)).
Proof. rewrite Nat.mul_add_distr_r, ang_add. apply cas_plus. Qed.

(** reindexing by a rotation *)
Lemma rsum_rotate n j F : (j <= n)%nat -> (0 < n)%nat ->
  rsum n (fun k => F ((k + (n - j)) mod n)) = rsum n F.
Proof.
  intros Hj Hn. apply (rsum_perm n (fun k => (k + (n - j)) mod n) (fun m => (m + j) mod n))%nat.
  - intros k Hk. split; [apply Nat.mod_upper_bound; lia|].
    rewrite Nat.add_mod_idemp_l by lia. replace (k + (n - j) + j)%nat with (k + 1 * n)%nat by lia.
    rewrite Nat.mod_add by lia. now apply Nat.mod_small.
  - intros k Hk. split; [apply Nat.mod_upper_bound; lia|].
    rewrite Nat.add_mod_idemp_l by lia. replace (k + j + (n - j))%nat with (k + 1 * n)%nat by lia.
    rewrite Nat.mod_add by lia. now apply Nat.mod_small.
Qed.

Definition convf n (u v : nat -> R) (k : nat) : R := rsum n (fun j => u j * v ((k + (n - j)) mod n)%nat).

Lemma conv_theorem n u v k : (0 < n)%nat -> (k <= n)%nat ->
  dhtf n (convf n u v) k = dhtf n u k * cpart n v k + dhtf n u (neg_idx n k) * spart n v k.
Proof.
  intros Hn Hk. unfold dhtf at 1, convf.
  rewrite (rsum_ext n _ (fun i => rsum n (fun j => u j * (v ((i + (n - j)) mod n)%nat * cas (ang n (i * k)))))).
  2:{ intros i Hi. rewrite <- rsum_scal_r. apply rsum_ext. intros. lra. }
  rewrite rsum_swap.
  rewrite (rsum_ext n _ (fun j => u j * (cpart n v k * cas (ang n (j * k)) + spart n v k * cas (- ang n (j * k))))).
  - unfold dhtf. rewrite <- !rsum_scal_r, <- rsum_add. apply rsum_ext. intros j Hj.
    rewrite cas_neg. unfold cas. destruct (neg_idx_angle n j k Hk Hn) as [-> ->]. lra.
  - intros j Hj. rewrite rsum_scal. f_equal.
    rewrite (rsum_ext n _ (fun i => (fun m => v m * cas (ang n ((m + j) * k))) ((i + (n - j)) mod n)%nat)).
    + rewrite (rsum_rotate n j (fun m => v m * cas (ang n ((m + j) * k)))) by lia. unfold cpart, spart. rewrite <- !rsum_scal_r, <- rsum_add.
      apply rsum_ext. intros m Hm. rewrite cas_shift. lra.
    + intros i Hi. cbv beta. f_equal. unfold cas.
      destruct (ang_mod_eq n (i * k) (((i + (n - j)) mod n + j) * k)) as [-> ->]; auto; [lia|].
      rewrite <- (Nat.mul_mod_idemp_l ((i + (n - j)) mod n + j)) by lia. rewrite Nat.add_mod_idemp_l by lia.
      replace (i + (n - j) + j)%nat with (i + 1 * n)%nat by lia. rewrite Nat.mod_add by lia.
      now rewrite Nat.mul_mod_idemp_l by lia.
Qed.

(** ** on lists *)
Lemma dht_spec_involution x : dht_spec (dht_spec x) = map (fun v => INR (length x) * v) x.
Proof.
  symmetry. apply dht_spec_ext; [now rewrite map_length, dht_spec_length|].
  intros k Hk. rewrite dht_spec_length in Hk. rewrite dht_at_dhtf, dht_spec_length.
  rewrite (dhtf_ext _ _ (dhtf (length x) (fun j => nth j x 0))) by (intros; now rewrite nth_dht_spec).
  rewrite dhtf_twice by auto.
  rewrite (nth_indep _ 0 (INR (length x) * 0)) by (now rewrite map_length).
  now rewrite (map_nth (fun v => INR (length x) * v)).
Qed.

Lemma dht_spec_linear a b x y : length y = length x ->
  dht_spec (lincomb a b x y) = lincomb a b (dht_spec x) (dht_spec y).
Proof.
  intros L. assert (Ll : length (lincomb a b x y) = length x) by (unfold lincomb; now rewrite map_length, seq_length).
  symmetry. apply dht_spec_ext.
  - unfold lincomb. rewrite map_length, seq_length, dht_spec_length, map_length, seq_length. auto.
  - intros k Hk. rewrite Ll in Hk. unfold lincomb at 1. rewrite dht_spec_length.
    rewrite (nth_map_seq (fun j => a * nth j (dht_spec x) 0 + b * nth j (dht_spec y) 0)) by auto. simpl plus.
    rewrite !nth_dht_spec by lia. rewrite !dht_at_dhtf, Ll, L, <- dhtf_lin. apply dhtf_ext. intros j Hj.
    unfold lincomb. now rewrite nth_map_seq.
Qed.

Lemma dht_spec_parseval x :
  rsum (length x) (fun k => nth k (dht_spec x) 0 * nth k (dht_spec x) 0) =
  INR (length x) * rsum (length x) (fun j => nth j x 0 * nth j x 0).
Proof.
  rewrite <- parseval. apply rsum_ext. intros k Hk. now rewrite nth_dht_spec.
Qed.

Lemma dht_spec_sum x : x <> nil -> nth 0 (dht_spec x) 0 = rsum (length x) (fun j => nth j x 0).
Proof.
  intros Hx. rewrite nth_dht_spec by (destruct x; [easy|simpl; lia]). rewrite dht_at_dhtf. apply dhtf_zero.
Qed.

Lemma rev_tail_length x : length (rev_tail x) = length x.
Proof. destruct x; simpl; auto. now rewrite rev_length. Qed.

Lemma nth_rev_tail x k : (k < length x)%nat -> nth k (rev_tail x) 0 = nth (neg_idx (length x) k) x 0.
Proof.
  intros Hk. destruct x as [|a t]; [simpl in Hk; lia|]. unfold neg_idx. cbn [length] in *. destruct k.
  - rewrite Nat.sub_0_r, Nat.mod_same by lia. reflexivity.
  - cbn [rev_tail nth]. rewrite rev_nth by lia. rewrite Nat.mod_small by lia.
    replace (S (length t) - S k)%nat with (S (length t - S k)) by lia. reflexivity.
Qed.

Lemma neg_idx_invol n k : (k < n)%nat -> neg_idx n (neg_idx n k) = k.
Proof.
  intros Hk. unfold neg_idx. destruct k.
  - rewrite Nat.sub_0_r, Nat.mod_same, Nat.sub_0_r, Nat.mod_same by lia. reflexivity.
  - rewrite (Nat.mod_small (n - S k)) by lia. rewrite Nat.mod_small by lia. lia.
Qed.

Lemma dht_spec_rev_tail x : dht_spec (rev_tail x) = rev_tail (dht_spec x).
Proof.
  symmetry. apply dht_spec_ext; [now rewrite !rev_tail_length, dht_spec_length|].
  intros k Hk. rewrite rev_tail_length in Hk.
  rewrite nth_rev_tail by (now rewrite dht_spec_length). rewrite dht_spec_length.
  assert (Hn : (0 < length x)%nat) by lia.
  rewrite nth_dht_spec by (now apply neg_idx_lt).
  unfold dht_at. rewrite rev_tail_length.
  rewrite <- (rsum_perm (length x) (neg_idx (length x)) (neg_idx (length x))).
  - apply rsum_ext. intros j Hj. pose proof (neg_idx_lt (length x) j Hn).
    rewrite nth_rev_tail by auto. f_equal. unfold cas.
    destruct (neg_idx_angle (length x) (neg_idx (length x) j) k ltac:(lia) Hn) as [-> ->].
    rewrite (Nat.mul_comm _ k). destruct (neg_idx_angle (length x) k j ltac:(lia) Hn) as [-> ->].
    rewrite (Nat.mul_comm k). lra.
  - intros j Hj. split; [now apply neg_idx_lt|now apply neg_idx_invol].
  - intros j Hj. split; [now apply neg_idx_lt|now apply neg_idx_invol].
Qed.

(** reversing the whole input *)
Lemma dht_spec_rev x k : (k < length x)%nat ->
  nth k (dht_spec (rev x)) 0 =
  cos (ang (length x) k) * nth (neg_idx (length x) k) (dht_spec x) 0 - sin (ang (length x) k) * nth k (dht_spec x) 0.
Proof.
  intros Hk. rewrite !nth_dht_spec by (rewrite ?rev_length; auto; apply neg_idx_lt; lia).
  rewrite !dht_at_hart, rev_length.
  assert (E : forall t, hart (length x) (fun j => nth j (rev x) 0) t = hart (length x) (fun j => nth (length x - 1 - j) x 0) t).
  { intros t. apply rsum_ext. intros j Hj. rewrite rev_nth by auto. do 2 f_equal. lia. }
  rewrite E. rewrite (hart_rev (length x) (fun j => nth j x 0) _ k).
  - f_equal. f_equal. rewrite <- dht_at_hart, dht_at_dhtf, dhtf_neg by lia.
    unfold hart, cpart, spart. rewrite <- rsum_sub. apply rsum_ext. intros j Hj.
    replace (INR j * - ang (length x) k) with (- ang (length x) (j * k)) by (rewrite ang_mul; lra).
    rewrite cas_neg. lra.
  - left. rewrite <- ang_mul, Nat.mul_comm. apply ang_turns. lia.
Qed.

Lemma conv_length x y : length (conv x y) = length x.
Proof. unfold conv. now rewrite map_length, seq_length. Qed.

(** the DHT of a circular convolution *)
Lemma dht_spec_conv x y k : length y = length x -> (k < length x)%nat ->
  let X i := nth i (dht_spec x) 0 in let Y i := nth i (dht_spec y) 0 in
  let n := length x in
  nth k (dht_spec (conv x y)) 0 =
  X k * ((Y k + Y (neg_idx n k)) / 2) + X (neg_idx n k) * ((Y k - Y (neg_idx n k)) / 2).
Proof.
  intros L Hk. cbv zeta. assert (Hn : (0 < length x)%nat) by lia. pose proof (neg_idx_lt (length x) k Hn).
  rewrite !nth_dht_spec by (rewrite ?conv_length, ?L; auto). rewrite !dht_at_dhtf, conv_length, L.
  rewrite (dhtf_ext _ (fun j => nth j (conv x y) 0) (convf (length x) (fun j => nth j x 0) (fun j => nth j y 0))).
  2:{ intros j Hj. unfold conv, convf. rewrite nth_map_seq by auto. reflexivity. }
  rewrite conv_theorem by lia. rewrite !dhtf_neg by lia. rewrite !dhtf_parts. lra.
Qed.
