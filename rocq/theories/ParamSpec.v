(** * Specification vocabulary: two runs compared *)
From Verif Require Export Spec Api.
From Flocq Require Import IEEE754.BinarySingleNaN.

(** both runs end in the same way: both return and [P] holds of the results, or both panic, or both leave a
    slice, or both loop *)
Definition rr {A B} (P : A -> B -> Prop) (r : res A) (r' : res B) : Prop :=
  match r, r' with
  | Ok a, Ok b => P a b
  | Panic, Panic => True
  | UB, UB => True
  | Hang, Hang => True
  | _, _ => False
  end.

(** [d] and [d'] have the same sizes, and on slices of the same lengths they end in the same way and leave slices
    of the same lengths, whatever the slices contain *)
Definition indifferent {A B} (d : Dht A) (d' : Dht B) : Prop :=
  (dht_len d = dht_len d' /\ dht_inplace_scratch d = dht_inplace_scratch d' /\ dht_oop_scratch d = dht_oop_scratch d') /\
  (forall b b' s s', length b = length b' -> length s = length s' ->
     rr (fun '(x, y) '(x', y') => length x = length x' /\ length y = length y')
        (dht_process_with_scratch d b s) (dht_process_with_scratch d' b' s')) /\
  (forall i i' o o' s s', length i = length i' -> length o = length o' -> length s = length s' ->
     rr (fun '(x, y, z) '(x', y', z') => length x = length x' /\ length y = length y' /\ length z = length z')
        (dht_process_oop d i o s) (dht_process_oop d' i' o' s')).

(** relations between two number types that the arithmetic respects, when data are only added, subtracted, negated
    and multiplied by constants *)
Section Num2.
  Context {A B : Type} {NA : Num A} {NB : Num B}.
  (** the constants, and what is computed from them alone *)
  Record coefs (RC : A -> B -> Prop) : Prop := {
    rc_zero : RC nzero nzero;
    rc_cos : forall s i n, RC (ncos s i n) (ncos s i n);
    rc_sin : forall s i n, RC (nsin s i n) (nsin s i n);
    rc_half : RC nhalf nhalf;
    rc_root_half : RC nroot_half nroot_half;
    rc_recip : forall n, RC (nrecip n) (nrecip n);
    rc_add : forall a a' b b', RC a a' -> RC b b' -> RC (a +! b) (a' +! b');
    rc_sub : forall a a' b b', RC a a' -> RC b b' -> RC (a -! b) (a' -! b');
    rc_mul : forall a a' b b', RC a a' -> RC b b' -> RC (a *! b) (a' *! b');
    rc_opp : forall a a', RC a a' -> RC (-! a) (-! a')
  }.
  (** the data: added to each other, multiplied by constants *)
  Record additive (RC RD : A -> B -> Prop) : Prop := {
    rd_zero : RD nzero nzero;
    rd_add : forall a a' b b', RD a a' -> RD b b' -> RD (a +! b) (a' +! b');
    rd_sub : forall a a' b b', RD a a' -> RD b b' -> RD (a -! b) (a' -! b');
    rd_opp : forall a a', RD a a' -> RD (-! a) (-! a');
    rd_scale_l : forall c c' a a', RC c c' -> RD a a' -> RD (c *! a) (c' *! a');
    rd_scale_r : forall c c' a a', RC c c' -> RD a a' -> RD (a *! c) (a' *! c')
  }.
End Num2.

(** values no operation recovers from: NaN, or everything that is not finite *)
Record absorbing {T} {NT : Num T} (bad : T -> Prop) : Prop := {
  ab_add : forall a b, bad a \/ bad b -> bad (a +! b);
  ab_sub : forall a b, bad a \/ bad b -> bad (a -! b);
  ab_mul : forall a b, bad a \/ bad b -> bad (a *! b);
  ab_opp : forall a, bad a -> bad (-! a)
}.
(** a bad input [j] spoils every output [k] in whose definition it has a coefficient *)
Definition spreads {T} {NT : Num T} (bad : T -> Prop) (d : Dht T) : Prop :=
  exists f, transforms d f /\
    forall x j k, length x = dht_len d -> j < dht_len d -> k < dht_len d ->
      bad (nth j x nzero) -> cas (ang (dht_len d) (j * k)) <> 0%R -> bad (nth k (f x) nzero).

(** the same number, where +0 and -0 are the same *)
Definition same_number {prec emax} (a b : binary_float prec emax) : Prop :=
  a = b \/ (exists s s', a = B754_zero s /\ b = B754_zero s').

(** one is minus the other, up to the sign of a zero *)
Definition mirror {prec emax} (a b : binary_float prec emax) : Prop := same_number (Bopp a) b.
