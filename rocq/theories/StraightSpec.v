(** * Specification vocabulary: straight-line programs

    An expression over input variables and the constants a number type provides; its value over any number type. *)
From Verif Require Export Spec Api FloatSpec Ieee.
From Flocq Require Import Core IEEE754.BinarySingleNaN.
From Coq Require Import Reals.

Inductive expr :=
| Var (j : nat)
| Zero
| Cos (s : bool) (i n : nat) | Sin (s : bool) (i n : nat) | Half | Root_half | Recip (n : nat)
| Plus (a b : expr) | Minus (a b : expr) | Times (a b : expr) | Neg (a : expr).

Fixpoint eval {T} {N : Num T} (x : list T) (e : expr) : T :=
  match e with
  | Var j => nth j x nzero
  | Zero => nzero
  | Cos s i n => ncos s i n
  | Sin s i n => nsin s i n
  | Half => nhalf
  | Root_half => nroot_half
  | Recip n => nrecip n
  | Plus a b => (eval x a +! eval x b)%num
  | Minus a b => (eval x a -! eval x b)%num
  | Times a b => (eval x a *! eval x b)%num
  | Neg a => (-! eval x a)%num
  end.

(** no variable: the same value for every input *)
Fixpoint fixed (e : expr) : Prop :=
  match e with
  | Var _ => False
  | Plus a b | Minus a b | Times a b => fixed a /\ fixed b
  | Neg a => fixed a
  | _ => True
  end.

(** built from variables [j < n] and zero by [+], [-], negation and multiplication by constants *)
Fixpoint combination (n : nat) (e : expr) : Prop :=
  match e with
  | Var j => j < n
  | Zero => True
  | Plus a b | Minus a b => combination n a /\ combination n b
  | Times a b => (fixed a /\ combination n b) \/ (combination n a /\ fixed b)
  | Neg a => combination n a
  | _ => False
  end.

(** one list of expressions describes what the instance computes, over every number type *)
Definition program (m : profile) (t : tree) (es : list expr) : Prop :=
  length es = tree_len t /\ Forall (combination (tree_len t)) es /\
  forall T (N : Num T) d f, @build T N m t = Ok d -> transforms d f ->
  forall x, length x = dht_len d -> f x = map (eval x) es.

(** the computed operands of every sum and difference of data have an exact sum of magnitude at most [hi]; every product
    of a constant and data is zero or of magnitude between [lo] and [hi] *)
Fixpoint calm {prec emax} {N : Num (binary_float prec emax)} (lo hi : R) (x : list (binary_float prec emax)) (e : expr) : Prop :=
  match e with
  | Plus a b => calm lo hi x a /\ calm lo hi x b /\ (Rabs (B2R (eval x a) + B2R (eval x b)) <= hi)%R
  | Minus a b => calm lo hi x a /\ calm lo hi x b /\ (Rabs (B2R (eval x a) - B2R (eval x b)) <= hi)%R
  | Times a b => (fixed a /\ calm lo hi x b \/ calm lo hi x a /\ fixed b) /\
               is_finite (eval x a) = true /\ is_finite (eval x b) = true /\ 
               (B2R (eval x a) * B2R (eval x b) = 0 \/ lo <= Rabs (B2R (eval x a) * B2R (eval x b)) <= hi)%R
  | Neg a => calm lo hi x a
  | Var _ | Zero => True
  | _ => False
  end.

(** [b] is exactly [2^k] times [a]; both are finite *)
Definition shifted {prec emax} (k : Z) (a b : binary_float prec emax) : Prop :=
  is_finite a = true /\ is_finite b = true /\ B2R b = (bpow radix2 k * B2R a)%R.
