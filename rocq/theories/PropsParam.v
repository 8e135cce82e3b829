(** * Properties C46-C50: what the code does with its data

    [indifferent], [absorbing], [coefs], [additive], [same_number] are defined in ParamSpec.v. *)
From Verif Require Import PropsParamProof.
From Coq Require Import Reals.

(** ** C46: control flow, panics and memory accesses do not depend on the values in the buffers, nor on the type *)
Theorem C46_trees : forall A B (NA : Num A) (NB : Num B) m t, rr indifferent (@build A NA m t) (@build B NB m t).
Proof. exact build_indifferent. Qed.
Print Assumptions C46_trees.
Theorem C46_assembled : forall T (NT : Num T) m (A : allowed T), (forall d, al_user A d -> indifferent d d) ->
  forall d, assembled m A d -> indifferent d d.
Proof. exact assembled_indifferent. Qed.
Print Assumptions C46_assembled.
Example C46_case : forall L m, exists d f, @build f32 (Num_f32 L) m odd_tree = Ok d /\ transforms d f /\ dht_len d = 39.
Proof. intros L m. exact (odd_build f32 (Num_f32 L) m). Qed.

(** ** C47: one NaN or infinity among the inputs spoils every output it has a coefficient in *)
Theorem C47_spoils : forall T (N : Num T) (bad : T -> Prop), absorbing bad ->
  forall m t d f, in_range t -> @build T N m t = Ok d -> transforms d f ->
  forall x j, length x = dht_len d -> j < dht_len d -> bad (nth j x nzero) ->
  bad (nth 0 (f x) nzero) /\
  (forall k, k < dht_len d -> cas (ang (dht_len d) (j * k)) <> 0%R -> bad (nth k (f x) nzero)) /\
  (~ Nat.divide 8 (dht_len d) -> forall k, k < dht_len d -> bad (nth k (f x) nzero)).
Proof. exact spoils_proof. Qed.
Print Assumptions C47_spoils.
Theorem C47_f32 : forall L m t d f, in_range t -> @build f32 (Num_f32 L) m t = Ok d -> transforms d f ->
  forall x j, length x = dht_len d -> j < dht_len d ->
  (is_finite (nth j x (B754_zero false)) = false ->
     is_finite (nth 0 (f x) (B754_zero false)) = false /\
     (~ Nat.divide 8 (dht_len d) -> forall k, k < dht_len d -> is_finite (nth k (f x) (B754_zero false)) = false)) /\
  (is_nan (nth j x (B754_zero false)) = true ->
     is_nan (nth 0 (f x) (B754_zero false)) = true /\
     (~ Nat.divide 8 (dht_len d) -> forall k, k < dht_len d -> is_nan (nth k (f x) (B754_zero false)) = true)).
Proof. exact C47_f32_proof. Qed.
Print Assumptions C47_f32.
Theorem C47_f64 : forall L m t d f, in_range t -> @build f64 (Num_f64 L) m t = Ok d -> transforms d f ->
  forall x j, length x = dht_len d -> j < dht_len d ->
  (is_finite (nth j x (B754_zero false)) = false ->
     is_finite (nth 0 (f x) (B754_zero false)) = false /\
     (~ Nat.divide 8 (dht_len d) -> forall k, k < dht_len d -> is_finite (nth k (f x) (B754_zero false)) = false)) /\
  (is_nan (nth j x (B754_zero false)) = true ->
     is_nan (nth 0 (f x) (B754_zero false)) = true /\
     (~ Nat.divide 8 (dht_len d) -> forall k, k < dht_len d -> is_nan (nth k (f x) (B754_zero false)) = true)).
Proof. exact C47_f64_proof. Qed.
Print Assumptions C47_f64.
Example C47_case : forall L m, in_range odd_tree /\ ~ Nat.divide 8 39 /\
  exists d f, @build f32 (Num_f32 L) m odd_tree = Ok d /\ transforms d f /\ dht_len d = 39.
Proof. exact C47_case_proof. Qed.
(** the coefficient matters: with [true] for a spoilt value, Butterfly8 keeps outputs 1 and 5 clean of input 3 *)
Example C47_needed : @absorbing bool Num_taint (fun b => b = true) /\
  dht_process_oop (@butterfly8 bool Num_taint) [false; false; false; true; false; false; false; false] (repeat false 8) [] =
  Ok ([false; false; false; true; false; false; false; false], [true; false; true; true; true; false; true; true], []).
Proof. exact C47_needed_proof. Qed.

(** ** C48: negating the input negates the output, exactly (up to the sign of zeros), NaN and overflow included *)
Theorem C48_f32 : forall L m t d f, @build f32 (Num_f32 L) m t = Ok d -> transforms d f ->
  forall x, length x = dht_len d -> Forall2 same_number (map Bopp (f x)) (f (map Bopp x)).
Proof. exact C48_f32_proof. Qed.
Print Assumptions C48_f32.
Theorem C48_f64 : forall L m t d f, @build f64 (Num_f64 L) m t = Ok d -> transforms d f ->
  forall x, length x = dht_len d -> Forall2 same_number (map Bopp (f x)) (f (map Bopp x)).
Proof. exact C48_f64_proof. Qed.
Print Assumptions C48_f64.
Example C48_case : forall L m, exists d f, @build f32 (Num_f32 L) m odd_tree = Ok d /\ transforms d f /\ dht_len d = 39.
Proof. intros L m. exact (odd_build f32 (Num_f32 L) m). Qed.

(** ** C49: whether a zero input is +0 or -0 changes nothing but the sign of zero outputs *)
Theorem C49_f32 : forall L m t d f, @build f32 (Num_f32 L) m t = Ok d -> transforms d f ->
  forall x y, length x = dht_len d -> Forall2 same_number x y -> Forall2 same_number (f x) (f y).
Proof. exact C49_f32_proof. Qed.
Print Assumptions C49_f32.
Theorem C49_f64 : forall L m t d f, @build f64 (Num_f64 L) m t = Ok d -> transforms d f ->
  forall x y, length x = dht_len d -> Forall2 same_number x y -> Forall2 same_number (f x) (f y).
Proof. exact C49_f64_proof. Qed.
Print Assumptions C49_f64.
Example C49_case : forall L m, exists d f, @build f64 (Num_f64 L) m odd_tree = Ok d /\ transforms d f /\ dht_len d = 39.
Proof. intros L m. exact (odd_build f64 (Num_f64 L) m). Qed.

(** ** C50: data are only added, subtracted, negated and multiplied by constants: any relation these operations
    respect holds between the outputs *)
Theorem C50_parametric : forall A B (NA : Num A) (NB : Num B) (RC RD : A -> B -> Prop), coefs RC -> additive RC RD ->
  forall m t d d' f f', @build A NA m t = Ok d -> @build B NB m t = Ok d' -> transforms d f -> transforms d' f' ->
  forall x x', length x = dht_len d -> Forall2 RD x x' -> Forall2 RD (f x) (f' x').
Proof. exact parametric_proof. Qed.
Print Assumptions C50_parametric.
Example C50_case : forall L m, @coefs f32 f32 (Num_f32 L) (Num_f32 L) eq /\ @additive f32 f32 (Num_f32 L) (Num_f32 L) eq mirror /\
  exists d f, @build f32 (Num_f32 L) m odd_tree = Ok d /\ transforms d f /\ dht_len d = 39.
Proof. exact C50_case_proof. Qed.
