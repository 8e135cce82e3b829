(** * The number type [T: FftNum], without any algebraic law.

    [T: FftNum] of /repo is f32 or f64.  [Num T] lists exactly the operations the code applies to
    values of type [T].  No law is assumed, so a theorem quantified over every [Num T] holds for
    IEEE f32 and f64 with all their rounding. *)
From Verif Require Export Base.

Class Num (T : Type) := {
  nzero : T;                       (* Zero::zero() *)
  nadd : T -> T -> T;
  nsub : T -> T -> T;
  nmul : T -> T -> T;
  nopp : T -> T;
  (* T::from_f64((s * 2*PI / len as f64 * index as f64).cos()).unwrap(), s = +1 for [false]
     (inverse / dht twiddles, src/twiddles.rs:9-10,19-20), s = -1 for [true] (:34-35) *)
  ncos : bool -> nat -> nat -> T;
  nsin : bool -> nat -> nat -> T;
  nhalf : T;                       (* T::from_f32(0.5).unwrap() *)
  nroot_half : T;                  (* T::from_f32(0.5f32.sqrt()).unwrap() *)
  nrecip : nat -> T                (* T::from_f64(1f64 / n as f64).unwrap() *)
}.

Declare Scope num_scope.
Delimit Scope num_scope with num.
Infix "+!" := nadd (at level 50, left associativity) : num_scope.
Infix "-!" := nsub (at level 50, left associativity) : num_scope.
Infix "*!" := nmul (at level 40, left associativity) : num_scope.
Notation "-! x" := (nopp x) (at level 35, right associativity) : num_scope.
Global Open Scope num_scope.

(** num_complex::Complex<T> *)
Record cplx (T : Type) := Cplx { re : T; im : T }.
Arguments Cplx {T} re im.
Arguments re {T} c.
Arguments im {T} c.

Section Twiddles.
  Context {T : Type} `{Num T}.

  (** num_complex: [Complex<T> * T] scales both components *)
  Definition cscale (c : cplx T) (s : T) : cplx T := Cplx (re c *! s) (im c *! s).

  (** src/twiddles.rs:5-13 compute_dht_twiddle *)
  Definition compute_dht_twiddle (index fft_len : nat) : T :=
    ncos false index fft_len +! nsin false index fft_len.

  (** src/twiddles.rs:15-28 compute_dft_twiddle_inverse *)
  Definition compute_dft_twiddle_inverse (index fft_len : nat) : cplx T :=
    Cplx (ncos false index fft_len) (nsin false index fft_len).

  (** src/twiddles.rs:30-43 compute_dft_twiddle_forward *)
  Definition compute_dft_twiddle_forward (index fft_len : nat) : cplx T :=
    Cplx (ncos true index fft_len) (nsin true index fft_len).
End Twiddles.
