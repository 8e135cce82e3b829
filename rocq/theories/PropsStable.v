(** * Property C75: the transform's laws under rounding

    [rms_close F d r C] bounds the error of the instance [d] (C64): r - 1 relative to the exact transform's length.
    [norm2], [distance], [scale] are defined in RmsSpec.v. *)
From Verif Require Import PropsStableProof.
From Coq Require Import Reals.
Local Open Scope R_scope.

(** the computed output is the exact transform of an input that differs from the given one by at most r - 1, relatively *)
Theorem C75_backward : forall T (F : fmt T) d r C, rms_close F d r C ->
  exists f, transforms d f /\
    forall x, length x = dht_len d -> Forall (ffin F) x -> C * (sqrt (INR (dht_len d)) * scale F x) <= fhi F ->
      exists x', length x' = dht_len d /\ dht_spec x' = map (fval F) (f x) /\ distance x' (map (fval F) x) <= (r - 1) * scale F x.
Proof. exact @C75_backward_proof. Qed.
Print Assumptions C75_backward.

(** inputs close to each other have outputs close to each other *)
Theorem C75_continuous : forall T (F : fmt T) d r C, rms_close F d r C ->
  exists f, transforms d f /\
    forall x y, length x = dht_len d -> length y = dht_len d -> Forall (ffin F) x -> Forall (ffin F) y ->
      C * (sqrt (INR (dht_len d)) * scale F x) <= fhi F -> C * (sqrt (INR (dht_len d)) * scale F y) <= fhi F ->
      distance (map (fval F) (f x)) (map (fval F) (f y)) <=
      sqrt (INR (dht_len d)) * (distance (map (fval F) x) (map (fval F) y) + (r - 1) * (scale F x + scale F y)).
Proof. exact @C75_continuous_proof. Qed.
Print Assumptions C75_continuous.

(** linearity (C22), up to these errors *)
Theorem C75_linear : forall T (F : fmt T) d r C, rms_close F d r C ->
  exists f, transforms d f /\
    forall a b x y z, length x = dht_len d -> length y = dht_len d ->
      map (fval F) z = lincomb a b (map (fval F) x) (map (fval F) y) ->
      Forall (ffin F) x -> Forall (ffin F) y -> Forall (ffin F) z ->
      C * (sqrt (INR (dht_len d)) * scale F x) <= fhi F -> C * (sqrt (INR (dht_len d)) * scale F y) <= fhi F ->
      C * (sqrt (INR (dht_len d)) * scale F z) <= fhi F ->
      distance (map (fval F) (f z)) (lincomb a b (map (fval F) (f x)) (map (fval F) (f y))) <=
      (r - 1) * (sqrt (INR (dht_len d)) * (scale F z + Rabs a * scale F x + Rabs b * scale F y)).
Proof. exact @C75_linear_proof. Qed.
Print Assumptions C75_linear.

(** C64 gives such instances: every tree, and here the one of length 1024, with r - 1 = (6 + 3) / 2^44 in f64 *)
Example C75_case : forall L m, accurate L -> exists d, @build _ (Num_f64 L) m (snd (splits 6)) = Ok d /\ dht_len d = 1024%nat /\
  rms_close F64 d (1 + (INR 6 + 3) * bpow radix2 (-44)) 8.
Proof. intros L m A. exact (splits_close64 L m 6 A eq_refl). Qed.
