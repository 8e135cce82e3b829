(** * f32 and f64: the two types the library is used at, as IEEE 754 arithmetic (Flocq)

    Rust's +, -, *, / and sqrt on f32 and f64 are the correctly rounded IEEE operations, round to nearest even.
    The platform's cos and sin are a parameter. *)
From Verif Require Export Num MathUtils.
From Flocq Require Export IEEE754.BinarySingleNaN.
From Flocq Require Import Core.
From Coq Require Export ZArith.

Definition f64 := binary_float 53 1024.

Definition f32_add (a b : f32) : f32 := @Bplus 24 128 eq_refl eq_refl mode_NE a b.
Definition f32_sub (a b : f32) : f32 := @Bminus 24 128 eq_refl eq_refl mode_NE a b.
Definition f32_mul (a b : f32) : f32 := @Bmult 24 128 eq_refl eq_refl mode_NE a b.
Definition f64_add (a b : f64) : f64 := @Bplus 53 1024 eq_refl eq_refl mode_NE a b.
Definition f64_sub (a b : f64) : f64 := @Bminus 53 1024 eq_refl eq_refl mode_NE a b.
Definition f64_mul (a b : f64) : f64 := @Bmult 53 1024 eq_refl eq_refl mode_NE a b.
Definition f64_div (a b : f64) : f64 := @Bdiv 53 1024 eq_refl eq_refl mode_NE a b.

(** [n as f64] for a usize *)
Definition f64_of_usize (n : nat) : f64 := binary_normalize 53 1024 eq_refl eq_refl mode_NE (Z.of_nat n) 0 false.
(** literals *)
Definition f64_one : f64 := binary_normalize 53 1024 eq_refl eq_refl mode_NE 1 0 false.
Definition f64_two : f64 := binary_normalize 53 1024 eq_refl eq_refl mode_NE 2 0 false.
Definition f32_one_half : f32 := binary_normalize 24 128 eq_refl eq_refl mode_NE 1 (-1) false.
(** std::f64::consts::PI = 3.14159265358979323846264338327950288_f64, i.e. 884279719003555 / 2^48 *)
Definition f64_pi : f64 := binary_normalize 53 1024 eq_refl eq_refl mode_NE 884279719003555 (-48) false.

(** [x as f32] and [x as f64], what num_traits' from_f64 and from_f32 do on finite values *)
Definition f32_of_f64 (x : f64) : f32 :=
  match x with
  | B754_zero s => B754_zero s
  | B754_infinity s => B754_infinity s
  | B754_nan => B754_nan
  | B754_finite s m e _ => binary_normalize 24 128 eq_refl eq_refl mode_NE (cond_Zopp s (Zpos m)) e s
  end.
Definition f64_of_f32 (x : f32) : f64 :=
  match x with
  | B754_zero s => B754_zero s
  | B754_infinity s => B754_infinity s
  | B754_nan => B754_nan
  | B754_finite s m e _ => binary_normalize 53 1024 eq_refl eq_refl mode_NE (cond_Zopp s (Zpos m)) e s
  end.

(** twiddles.rs:9-10, 19-20 ([s] = false) and 34-35 ([s] = true, where the literal is -2f64):
    [let constant = 2f64 * PI / fft_len as f64; let angle = constant * index as f64;] *)
Definition f64_angle (s : bool) (i n : nat) : f64 :=
  let two := if s then Bopp f64_two else f64_two in
  let constant := f64_div (f64_mul two f64_pi) (f64_of_usize n) in
  f64_mul constant (f64_of_usize i).

(** f64::cos and f64::sin *)
Record libm := Libm { lcos : f64 -> f64; lsin : f64 -> f64 }.

Definition Num_f64 (L : libm) : Num f64 := {|
  nzero := B754_zero false; nadd := f64_add; nsub := f64_sub; nmul := f64_mul; nopp := Bopp;
  ncos := fun s i n => lcos L (f64_angle s i n);
  nsin := fun s i n => lsin L (f64_angle s i n);
  nhalf := f64_of_f32 f32_one_half;
  nroot_half := f64_of_f32 (f32_sqrt f32_one_half);
  nrecip := fun n => f64_div f64_one (f64_of_usize n) |}.

Definition Num_f32 (L : libm) : Num f32 := {|
  nzero := B754_zero false; nadd := f32_add; nsub := f32_sub; nmul := f32_mul; nopp := Bopp;
  ncos := fun s i n => f32_of_f64 (lcos L (f64_angle s i n));
  nsin := fun s i n => f32_of_f64 (lsin L (f64_angle s i n));
  nhalf := f32_one_half;
  nroot_half := f32_sqrt f32_one_half;
  nrecip := fun n => f32_of_f64 (f64_div f64_one (f64_of_usize n)) |}.
