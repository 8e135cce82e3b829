(** * Specification vocabulary: the discrete Hartley transform over the reals

    Nothing here depends on the model of the code, except [RNum], which says how the operations the
    code applies to its number type are read as exact real operations. *)
From Verif Require Import Num.
From Coq Require Export Reals.
Local Open Scope R_scope.

(** f 0 + f 1 + ... + f (n-1) *)
Fixpoint rsum (n : nat) (f : nat -> R) : R :=
  match n with 0 => 0 | S m => rsum m f + f m end.

(** cas t = cos t + sin t *)
Definition cas (t : R) : R := cos t + sin t.

(** the angle 2*pi*k/n *)
Definition ang (n k : nat) : R := 2 * PI * INR k / INR n.

(** X[k] = sum_{j<n} x[j] * cas(2*pi*j*k/n) *)
Definition dht_at (x : list R) (k : nat) : R :=
  rsum (length x) (fun j => nth j x 0 * cas (ang (length x) (j * k))).
Definition dht_spec (x : list R) : list R := map (dht_at x) (seq 0 (length x)).

(** Exact reading of [T]'s operations.  [c] is the value the library uses for sqrt(1/2). *)
Definition RNum (c : R) : Num R := {|
  nzero := 0;
  nadd := Rplus;
  nsub := Rminus;
  nmul := Rmult;
  nopp := Ropp;
  ncos := fun s i n => cos ((if s then -1 else 1) * 2 * PI / INR n * INR i);
  nsin := fun s i n => sin ((if s then -1 else 1) * 2 * PI / INR n * INR i);
  nhalf := / 2;
  nroot_half := c;
  nrecip := fun n => / INR n
|}.

(** the exact constant *)
Definition rh : R := sqrt (/ 2).

(** ** vocabulary of the transform's properties *)
(** the index -k modulo n *)
Definition neg_idx (n k : nat) : nat := ((n - k) mod n)%nat.
(** circular convolution: (x * y)[k] = sum_j x[j] y[(k-j) mod n] *)
Definition conv (x y : list R) : list R :=
  let n := length x in
  map (fun k => rsum n (fun j => nth j x 0 * nth ((k + (n - j)) mod n) y 0)) (seq 0 n).
(** a x + b y *)
Definition lincomb (a b : R) (x y : list R) : list R :=
  map (fun j => a * nth j x 0 + b * nth j y 0) (seq 0 (length x)).
(** everything but the first element reversed *)
Definition rev_tail (x : list R) : list R :=
  match x with nil => nil | a :: t => a :: rev t end.
