(** * Specification vocabulary: the Fourier transform and rotations *)
From Verif Require Export Spec Api FloatSpec.
From Coq Require Import Reals.
Local Open Scope R_scope.

(** real part and minus the imaginary part of the discrete Fourier transform sum_j x[j] exp(-2 pi i j k / n) *)
Definition fourier_re (x : list R) (k : nat) : R := rsum (length x) (fun j => nth j x 0 * cos (ang (length x) (j * k))).
Definition fourier_im (x : list R) (k : nat) : R := rsum (length x) (fun j => nth j x 0 * sin (ang (length x) (j * k))).

(** the signal rotated left by [s]: entry [j] is x[(j + s) mod n] *)
Definition rotate (s : nat) (x : list R) : list R := skipn s x ++ firstn s x.
