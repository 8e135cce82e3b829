(** * Specification vocabulary: the accuracy of f32 and f64 *)
From Verif Require Export Ieee FloatSpec.
From Flocq Require Export Core.
Local Open Scope R_scope.

(** the platform's cos and sin: on finite angles up to 16 in magnitude, absolute error at most 2^-52 *)
Definition accurate (L : libm) : Prop :=
  forall a : f64, is_finite a = true -> Rabs (B2R a) <= 16 ->
    (is_finite (lcos L a) = true /\ Rabs (B2R (lcos L a) - cos (B2R a)) <= bpow radix2 (-52)) /\
    (is_finite (lsin L a) = true /\ Rabs (B2R (lsin L a) - sin (B2R a)) <= bpow radix2 (-52)).

(** unit roundoff 2^-24 and 2^-53; smallest normal number 2^-126 and 2^-1022; 2^127 and 2^1023 are finite *)
Definition F32 : fmt f32 :=
  {| fval := B2R; ffin := fun v => is_finite v = true;
     flo := bpow radix2 (-126); fhi := bpow radix2 127; fu := bpow radix2 (-24);
     ftau := bpow radix2 (-24) + bpow radix2 (-45); frho := bpow radix2 (-24) |}.
Definition F64 : fmt f64 :=
  {| fval := B2R; ffin := fun v => is_finite v = true;
     flo := bpow radix2 (-1022); fhi := bpow radix2 1023; fu := bpow radix2 (-53);
     ftau := bpow radix2 (-46); frho := bpow radix2 (-24) |}.
