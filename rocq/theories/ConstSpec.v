(** * Specification vocabulary: the DHT with a mis-scaled constant *)
From Verif Require Import MathUtils.
From Verif Require Export Spec Api.
From Flocq Require Import IEEE754.BinarySingleNaN.
Local Open Scope R_scope.

(** the DHT of a length W*H input in which the terms with W not dividing j and H not dividing k are scaled by [rho] *)
Definition scaled_at (W H : nat) (rho : R) (x : list R) (k : nat) : R :=
  rsum (length x) (fun j =>
    (if ((j mod W =? 0) || (k mod H =? 0))%nat then 1 else rho) * (nth j x 0 * cas (ang (length x) (j * k)))).
Definition scaled_dht (W H : nat) (rho : R) (x : list R) : list R :=
  map (scaled_at W H rho x) (seq 0 (length x)).

(** sum_j |x[j]| *)
Definition norm1 (x : list R) : R := rsum (length x) (fun j => Rabs (nth j x 0)).

(** 0.5f32, and the value of T::from_f32(0.5f32.sqrt()) at any T that contains the f32 values (src/scalar/mixed_radix.rs:55,
    radix3.rs:33, radix5.rs:33, radix6.rs:34) *)
Definition f32_half : f32 := binary_normalize 24 128 eq_refl eq_refl mode_NE 1 (-1) false.
Definition lib_root_half : R := B2R (f32_sqrt f32_half).

(** on some input of a single chunk the output number 1 of [d] is further than eps * sum|x[j]| from the DHT *)
Definition deviates (c : R) (d : Dht R) (eps : R) : Prop :=
  exists x y, length x = dht_len d /\ @dht_process R (RNum c) d x = Ok y /\
              eps * norm1 x < Rabs (nth 1 y 0 - dht_at x 1).
