(** * Model of src/math_utils.rs, on 64-bit unsigned integers *)
From Verif Require Export Base.
From Coq Require Export NArith ZArith.
From Flocq Require Import Core.Zaux IEEE754.BinarySingleNaN.

(** Build profile: arithmetic overflow panics in Debug and wraps modulo 2^64 in Release. *)
Inductive profile := Debug | Release.

Definition two64 : N := 18446744073709551616%N.   (* 2^64 *)

(** The result of a u64 operation whose mathematical value is [v]. *)
Definition u64 (m : profile) (v : N) : res N :=
  if (v <? two64)%N then Ok v
  else match m with Debug => Panic | Release => Ok (v mod two64)%N end.

(** [a % b] and [a / b] on u64 *)
Definition u64_rem (a b : N) : res N := if (b =? 0)%N then Panic else Ok (a mod b)%N.
Definition u64_div (a b : N) : res N := if (b =? 0)%N then Panic else Ok (a / b)%N.

(** [while] loops: at most 2^n steps of [f]; [inl s] means "still running in state s". *)
Fixpoint steps {S R : Type} (n : nat) (f : S -> res (S + R)) (s : S) : res (S + R) :=
  match n with
  | 0 => f s
  | Datatypes.S m =>
    r <- steps m f s ;;
    match r with inl s' => steps m f s' | inr x => Ok (inr x) end
  end.
(** A loop that runs for more than 2^64 steps is reported as [Hang]; every loop below either stops
    within 2^64 steps (proved) or repeats a state forever. *)
Definition while {S R : Type} (f : S -> res (S + R)) (s : S) : res R :=
  r <- steps 64 f s ;; match r with inl _ => Hang | inr x => Ok x end.

(** math_utils.rs:4-18 modular_exponent, at T = u64 (its only instantiation, :65).  State:
    (base, exponent, result). *)
Definition modular_exponent (m : profile) (base exponent modulo : N) : res N :=
  while (fun '(base, exponent, result) =>
    if (0 <? exponent)%N then
      result <- (if N.odd exponent then
                   v <- u64 m (result * base) ;; u64_rem v modulo
                 else Ok result) ;;
      let exponent := (exponent / 2)%N in
      v <- u64 m (base * base) ;;
      base <- u64_rem v modulo ;;
      Ok (inl (base, exponent, result))
    else Ok (inr result)) (base, exponent, 1%N).

(** [n as f32] for a u64: round to nearest, ties to even, into binary32 *)
Definition f32 := binary_float 24 128.
Definition f32_of_u64 (n : N) : f32 :=
  binary_normalize 24 128 eq_refl eq_refl mode_NE (Z.of_N n) 0 false.

(** [x.sqrt()] on f32 (correctly rounded, IEEE 754) *)
Definition f32_sqrt (x : f32) : f32 :=
  @Bsqrt 24 128 eq_refl eq_refl mode_NE x.

(** [x as u64] for a non-negative finite f32 (truncation).  Saturation and NaN are not reached: the
    argument is the square root of a value at most 2^64. *)
Definition u64_of_f32 (x : f32) : N := Z.to_N (Btrunc x).

(** math_utils.rs:33,43 [(n as f32).sqrt() as u64 + 1] *)
Definition sqrt_limit (n : N) : N := (u64_of_f32 (f32_sqrt (f32_of_u64 n)) + 1)%N.

(** math_utils.rs:26-28,37-39 [while n % d == 0 { n /= d }] *)
Definition strip (d n : N) : res N :=
  while (fun n =>
    r <- u64_rem n d ;;
    if (r =? 0)%N then n' <- u64_div n d ;; Ok (inl n') else Ok (inr n)) n.

(** math_utils.rs:34-47 the trial division loop.  State: (n, divisor, limit, result); [result] is
    the Vec built by [push]. *)
Definition trial_step (m : profile) (st : N * N * N * list N)
  : res (N * N * N * list N + N * list N) :=
  let '(n, divisor, limit, result) := st in
  if (divisor <? limit)%N then
    r <- u64_rem n divisor ;;
    '(n, limit, result) <-
      (if (r =? 0)%N then
         n <- strip divisor n ;; Ok (n, sqrt_limit n, result ++ [divisor])
       else Ok (n, limit, result)) ;;
    divisor <- u64 m (divisor + 2) ;;
    Ok (inl (n, divisor, limit, result))
  else Ok (inr (n, result)).

(** math_utils.rs:21-55 distinct_prime_factors *)
Definition distinct_prime_factors (m : profile) (n : N) : res (list N) :=
  '(n, result) <- (if (n mod 2 =? 0)%N then n <- strip 2 n ;; Ok (n, [2%N]) else Ok (n, [])) ;;
  if (1 <? n)%N then
    '(n, result) <- while (trial_step m) (n, 3%N, sqrt_limit n, result) ;;
    if (1 <? n)%N then Ok (result ++ [n]) else Ok result
  else Ok result.

(** math_utils.rs:64-68: does some test exponent give 1? (stops at the first that does) *)
Fixpoint rejected (m : profile) (potential_root prime : N) (test_exponents : list N) : res bool :=
  match test_exponents with
  | [] => Ok false
  | e :: t =>
    v <- modular_exponent m potential_root e prime ;;
    if (v =? 1)%N then Ok true else rejected m potential_root prime t
  end.

(** math_utils.rs:58-61 the exponents (prime - 1) / factor *)
Fixpoint divide_all (n : N) (factors : list N) : res (list N) :=
  match factors with
  | [] => Ok []
  | f :: t => e <- u64_div n f ;; l <- divide_all n t ;; Ok (e :: l)
  end.

(** math_utils.rs:57-74 primitive_root *)
Definition primitive_root (m : profile) (prime : N) : res (option N) :=
  p1 <- (if (prime =? 0)%N then (match m with Debug => Panic | Release => Ok (two64 - 1)%N end)
         else Ok (prime - 1)%N) ;;
  factors <- distinct_prime_factors m p1 ;;
  test_exponents <- divide_all p1 factors ;;
  while (fun potential_root =>
    if (potential_root <? prime)%N then
      b <- rejected m potential_root prime test_exponents ;;
      if b then Ok (inl (potential_root + 1)%N) else Ok (inr (Some potential_root))
    else Ok (inr None)) 2%N.
