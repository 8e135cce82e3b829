(** * Proofs of the properties in PropsSpectrum.v *)
From Verif Require Export SpectrumSpec.
From Verif Require Import Lemmas RealDHT DHTTheory ApiReal PropsExactProof PropsFloatProof IeeeSpec Ieee.
From Flocq Require Import Core.
From Coq Require Import Lia Reals Lra.
Local Open Scope R_scope.

Lemma re_cpart x k : fourier_re x k = cpart (length x) (fun j => nth j x 0) k.
Proof. reflexivity. Qed.
Lemma im_spart x k : fourier_im x k = spart (length x) (fun j => nth j x 0) k.
Proof. reflexivity. Qed.
Lemma dht_parts x k : (k < length x)%nat ->
  dht_at x k = fourier_re x k + fourier_im x k /\ dht_at x (neg_idx (length x) k) = fourier_re x k - fourier_im x k.
Proof.
  intros Hk. rewrite !dht_at_dhtf, dhtf_neg, dhtf_parts by lia. split; reflexivity.
Qed.
Lemma rotate_length s x : (s <= length x)%nat -> length (rotate s x) = length x.
Proof. intros. unfold rotate. rewrite app_length, skipn_length, firstn_length. lia. Qed.
Lemma nth_rotate s x j : (s <= length x)%nat -> (j < length x)%nat -> nth j (rotate s x) 0 = nth ((j + s) mod length x) x 0.
Proof.
  intros Hs Hj. set (n := length x) in *.
  assert (E : forall i, (i < n - s)%nat -> nth i (skipn s x) 0 = nth (i + s) x 0).
  { intros i Hi. rewrite <- (firstn_skipn s x) at 2. rewrite app_nth2 by (rewrite firstn_length; lia).
    f_equal. rewrite firstn_length. fold n. lia. }
  unfold rotate. destruct (Nat.lt_ge_cases j (n - s)) as [H|H].
  - rewrite app_nth1 by (rewrite skipn_length; auto). rewrite E, Nat.mod_small by lia. reflexivity.
  - rewrite app_nth2 by (rewrite skipn_length; auto). rewrite skipn_length. fold n.
    replace (j + s)%nat with (j - (n - s) + 1 * n)%nat by lia. rewrite Nat.mod_add, Nat.mod_small by lia.
    rewrite <- (firstn_skipn s x) at 2. rewrite app_nth1 by (rewrite firstn_length; lia). reflexivity.
Qed.
Lemma shift_theorem s x k : (s <= length x)%nat -> (k < length x)%nat ->
  dht_at (rotate s x) k = cos (ang (length x) (s * k)) * dht_at x k - sin (ang (length x) (s * k)) * dht_at x (neg_idx (length x) k).
Proof.
  intros Hs Hk. set (n := length x) in *.
  set (G := fun i => nth i x 0 * cas (ang n ((n - s + i) * k))).
  assert (A : dht_at (rotate s x) k = rsum n G).
  { unfold dht_at. rewrite rotate_length by auto. fold n.
    rewrite <- (rsum_rotate n (n - s) G) by lia. apply rsum_ext. intros j Hj. unfold G.
    replace (n - (n - s))%nat with s by lia. rewrite nth_rotate by auto. fold n. f_equal. unfold cas.
    destruct (ang_mod_eq n ((n - s + (j + s) mod n) * k) (j * k)) as [E1 E2]; [lia| |now rewrite E1, E2].
    rewrite (Nat.mul_mod (n - s + _)), Nat.add_mod_idemp_r by lia.
    replace (n - s + (j + s))%nat with (j + 1 * n)%nat by lia. rewrite Nat.mod_add, <- Nat.mul_mod by lia. reflexivity. }
  rewrite A. unfold G.
  destruct (dht_parts x k Hk) as [P1 P2]. fold n in P2. rewrite P1, P2.
  assert (C : cos (ang n ((n - s) * k)) = cos (ang n (s * k)) /\ sin (ang n ((n - s) * k)) = - sin (ang n (s * k))).
  { apply (ang_opp n _ _ k); [lia|]. nia. }
  destruct C as [C1 C2].
  replace (cos (ang n (s * k)) * (fourier_re x k + fourier_im x k) - sin (ang n (s * k)) * (fourier_re x k - fourier_im x k))
    with (cos (ang n (s * k)) * fourier_re x k + cos (ang n (s * k)) * fourier_im x k - (sin (ang n (s * k)) * fourier_re x k - sin (ang n (s * k)) * fourier_im x k)) by ring.
  unfold fourier_re, fourier_im. fold n. rewrite <- !rsum_scal, <- rsum_add, <- !rsum_sub. apply rsum_ext. intros j Hj.
  rewrite cas_shift, C1, C2. unfold cas. rewrite cos_neg, sin_neg. ring.
Qed.

Section Api.
  Context (cst : R).
  Local Hint Extern 0 (Num R) => exact (RNum cst) : typeclass_instances.
  Variable d : Dht R.
  Hypothesis D : transforms d dht_spec.
  Hypothesis Hn : (0 < dht_len d)%nat.
  Lemma fourier_proof x : length x = dht_len d -> exists X, dht_process d x = Ok X /\ length X = dht_len d /\
    forall k, (k < dht_len d)%nat -> let k' := neg_idx (dht_len d) k in
      (nth k X 0 + nth k' X 0) / 2 = fourier_re x k /\ (nth k X 0 - nth k' X 0) / 2 = fourier_im x k /\
      (nth k X 0 * nth k X 0 + nth k' X 0 * nth k' X 0) / 2 = fourier_re x k * fourier_re x k + fourier_im x k * fourier_im x k.
  Proof.
    intros L. exists (dht_spec x). split; [now apply (process_one cst)|]. split; [now rewrite dht_spec_length|].
    intros k Hk. cbv zeta. rewrite <- L in *. rewrite !nth_dht_spec by (auto using neg_idx_lt).
    destruct (dht_parts x k Hk) as [-> ->]. repeat split; field.
  Qed.
  Lemma shift_proof x s : length x = dht_len d -> (s <= dht_len d)%nat -> exists X Y,
    dht_process d x = Ok X /\ dht_process d (rotate s x) = Ok Y /\ length Y = dht_len d /\
    forall k, (k < dht_len d)%nat ->
      nth k Y 0 = cos (ang (dht_len d) (s * k)) * nth k X 0 - sin (ang (dht_len d) (s * k)) * nth (neg_idx (dht_len d) k) X 0.
  Proof.
    intros L Hs. exists (dht_spec x), (dht_spec (rotate s x)).
    assert (Lr : length (rotate s x) = dht_len d) by (rewrite rotate_length; lia).
    split; [now apply (process_one cst)|]. split; [now apply (process_one cst)|]. split; [now rewrite dht_spec_length|].
    intros k Hk. rewrite <- L in *. rewrite !nth_dht_spec by (rewrite ?Lr; auto using neg_idx_lt). now apply shift_theorem.
  Qed.
End Api.

Lemma approx_fourier_proof T (F : fmt T) (N : Num T) d phi G : approximates F N d phi G ->
  exists f, transforms d f /\
    forall x k, length x = dht_len d -> (k < dht_len d)%nat -> Forall (ffin F) x -> phi * (G * size F x) <= fhi F ->
      let v i := fval F (nth i (f x) (@nzero T N)) in
      Rabs ((v k + v (neg_idx (dht_len d) k)) / 2 - fourier_re (map (fval F) x) k) <= (phi - 1) * (G * size F x) /\
      Rabs ((v k - v (neg_idx (dht_len d) k)) / 2 - fourier_im (map (fval F) x) k) <= (phi - 1) * (G * size F x).
Proof.
  intros (_ & _ & f & O & H). exists f. split; auto. intros x k L Hk Fx Hc. cbv zeta.
  destruct (H x k L Hk Fx Hc) as [_ H1]. destruct (H x (neg_idx (dht_len d) k) L ltac:(apply neg_idx_lt; lia) Fx Hc) as [_ H2].
  destruct (dht_parts (map (fval F) x) k) as [P1 P2]; [rewrite map_length; lia|]. rewrite map_length, L in P2.
  rewrite P1 in H1. rewrite P2 in H2. apply Rabs_le_inv in H1, H2. split; apply Rabs_le; lra.
Qed.
Lemma C68_case_proof : (exists (d : Dht R) (x : list R), transforms d dht_spec /\ (0 < dht_len d)%nat /\ length x = dht_len d) /\
  rotate 2 [1; 2; 3; 4; 5] = [3; 4; 5; 1; 2] /\
  exists L, approximates F64 (Num_f64 L) (@dht_naive f64 (Num_f64 L) 1000) ((1 + fu F64) ^ (1000 + 2) * (1 + ftau F64) ^ 1)%R 2.
Proof.
  split; [|split; [reflexivity|]].
  - destruct C21_case_proof as (d & xs & T & H & C & _). exists d, (repeat 0 (dht_len d)). split; [exact T|]. split; [exact H|apply repeat_length].
  - destruct C39_case_proof as (L & _ & H). exists L. apply C34_proof; [exact H|reflexivity].
Qed.
