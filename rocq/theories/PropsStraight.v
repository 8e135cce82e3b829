(** * Properties C65 and C66: every instance is a fixed straight-line program

    [expr], [eval], [fixed], [combination], [program], [calm], [shifted] are defined in StraightSpec.v. *)
From Verif Require Import PropsStraightProof IeeeSpec PropsParamProof.
From Flocq Require Import Core IEEE754.BinarySingleNaN.
From Coq Require Import Reals.

(** ** C65: one list of expressions, linear in the inputs, describes an instance over every number type *)
Theorem C65_exists : forall m t T (N : Num T) d, in_range t -> @build T N m t = Ok d -> exists es, program m t es.
Proof. exact program_exists_proof. Qed.
Print Assumptions C65_exists.
Theorem C65_unique : forall m t T (N : Num T) d es es', in_range t -> @build T N m t = Ok d ->
  program m t es -> program m t es' -> es = es'.
Proof. exact program_unique_proof. Qed.
Print Assumptions C65_unique.
(** running the code on the variables themselves prints the program *)
Theorem C65_read_off : forall m t (d : Dht expr) es output input' scratch scratch', in_range t -> @build expr Num_expr m t = Ok d ->
  0 < tree_len t -> length output = tree_len t -> dht_oop_scratch d <= length scratch ->
  dht_process_oop d (map Var (seq 0 (tree_len t))) output scratch = Ok (input', es, scratch') -> program m t es.
Proof. exact program_read_proof. Qed.
Print Assumptions C65_read_off.
Example C65_case : forall m, (exists d, @build expr Num_expr m odd_tree = Ok d /\ dht_len d = 39) /\ in_range odd_tree /\ program m Fly8 fly8.
Proof. exact C65_case_proof. Qed.

(** ** C66: multiplying the input by a power of two multiplies the output by it exactly, unless an intermediate result
    overflows or a product underflows *)
Theorem C66_f32 : forall L m t es d f, program m t es -> @build f32 (Num_f32 L) m t = Ok d -> transforms d f ->
  forall k lo hi x y, (bpow radix2 (-126) <= lo)%R -> (bpow radix2 (-126) <= lo * bpow radix2 k)%R ->
  (hi <= bpow radix2 127)%R -> (hi * bpow radix2 k <= bpow radix2 127)%R ->
  length x = dht_len d -> Forall2 (shifted k) x y -> Forall (@calm 24 128 (Num_f32 L) lo hi x) es ->
  Forall2 (shifted k) (f x) (f y).
Proof. exact shift32_proof. Qed.
Print Assumptions C66_f32.
Theorem C66_f64 : forall L m t es d f, program m t es -> @build f64 (Num_f64 L) m t = Ok d -> transforms d f ->
  forall k lo hi x y, (bpow radix2 (-1022) <= lo)%R -> (bpow radix2 (-1022) <= lo * bpow radix2 k)%R ->
  (hi <= bpow radix2 1023)%R -> (hi * bpow radix2 k <= bpow radix2 1023)%R ->
  length x = dht_len d -> Forall2 (shifted k) x y -> Forall (@calm 53 1024 (Num_f64 L) lo hi x) es ->
  Forall2 (shifted k) (f x) (f y).
Proof. exact shift64_proof. Qed.
Print Assumptions C66_f64.
(** Butterfly8 on 1, ..., 8 and on 2^100, ..., 8 * 2^100 *)
Example C66_case : forall L m, accurate L -> exists f, transforms (@butterfly8 f32 (Num_f32 L)) f /\
  @build f32 (Num_f32 L) m Fly8 = Ok (@butterfly8 f32 (Num_f32 L)) /\ program m Fly8 fly8 /\
  Forall2 (shifted 100) (count8 0) (count8 100) /\
  Forall (@calm 24 128 (Num_f32 L) (bpow radix2 (-20)) (bpow radix2 20) (count8 0)) fly8.
Proof. exact fly8_case_proof. Qed.
