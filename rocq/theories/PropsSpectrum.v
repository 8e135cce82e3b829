(** * Property C68: the Fourier transform and rotations

    [fourier_re], [fourier_im], [rotate] are defined in SpectrumSpec.v. *)
From Verif Require Import PropsSpectrumProof IeeeSpec Ieee PropsFloatProof.
From Coq Require Import Reals.

(** ** C68: the real and imaginary parts and the power of the discrete Fourier transform can be read off *)
Theorem C68_fourier : forall (c : R) d, transforms d dht_spec -> 0 < dht_len d ->
  forall x, length x = dht_len d -> exists X, @dht_process R (RNum c) d x = Ok X /\ length X = dht_len d /\
    forall k, k < dht_len d -> let k' := neg_idx (dht_len d) k in
      ((nth k X 0 + nth k' X 0) / 2 = fourier_re x k)%R /\ ((nth k X 0 - nth k' X 0) / 2 = fourier_im x k)%R /\
      ((nth k X 0 * nth k X 0 + nth k' X 0 * nth k' X 0) / 2 = fourier_re x k * fourier_re x k + fourier_im x k * fourier_im x k)%R.
Proof. exact fourier_proof. Qed.
Print Assumptions C68_fourier.
(** rotating the signal *)
Theorem C68_rotate : forall (c : R) d, transforms d dht_spec -> 0 < dht_len d ->
  forall x s, length x = dht_len d -> s <= dht_len d -> exists X Y,
    @dht_process R (RNum c) d x = Ok X /\ @dht_process R (RNum c) d (rotate s x) = Ok Y /\ length Y = dht_len d /\
    forall k, k < dht_len d ->
      nth k Y 0%R = (cos (ang (dht_len d) (s * k)) * nth k X 0 - sin (ang (dht_len d) (s * k)) * nth (neg_idx (dht_len d) k) X 0)%R.
Proof. exact shift_proof. Qed.
Print Assumptions C68_rotate.
(** with rounding: the same error bound as for the outputs themselves *)
Theorem C68_rounded : forall T (F : fmt T) (N : Num T) d phi G, approximates F N d phi G ->
  exists f, transforms d f /\
    forall x k, length x = dht_len d -> k < dht_len d -> Forall (ffin F) x -> (phi * (G * size F x) <= fhi F)%R ->
      let v i := fval F (nth i (f x) (@nzero T N)) in
      (Rabs ((v k + v (neg_idx (dht_len d) k)) / 2 - fourier_re (map (fval F) x) k) <= (phi - 1) * (G * size F x))%R /\
      (Rabs ((v k - v (neg_idx (dht_len d) k)) / 2 - fourier_im (map (fval F) x) k) <= (phi - 1) * (G * size F x))%R.
Proof. exact approx_fourier_proof. Qed.
Print Assumptions C68_rounded.
Example C68_case : (exists (d : Dht R) (x : list R), transforms d dht_spec /\ 0 < dht_len d /\ length x = dht_len d) /\
  rotate 2 [1; 2; 3; 4; 5]%R = [3; 4; 5; 1; 2]%R /\
  exists L, approximates F64 (Num_f64 L) (@dht_naive f64 (Num_f64 L) 1000) ((1 + fu F64) ^ (1000 + 2) * (1 + ftau F64) ^ 1)%R 2.
Proof. exact C68_case_proof. Qed.
