(** * Properties C58-C61: the crate's own tests

    [signal] is what random_real_signal returns; [uniform]: finite numbers between 0 and 10. *)
From Verif Require Import PropsTestProof PropsFloatProof IeeeProof.
From Flocq Require Import Core IEEE754.BinarySingleNaN.
From Coq Require Import Reals Lra Lia ZArith.

(** ** C58: every test passes, whatever the random signals are *)
Theorem C58_f32 : forall L m t d signal, accurate L -> uniform F32 signal -> in_range t -> representable F32 t ->
  @build f32 (Num_f32 L) m t = Ok d -> 0 < tree_len t -> tolerable t = true ->
  @check_dht_algorithm f32 (Num_f32 L) _ signal d (tree_len t) = Ok tt.
Proof. exact TestPass.passes32. Qed.
Print Assumptions C58_f32.
Theorem C58_f64 : forall L m t d signal, accurate L -> uniform F64 signal -> in_range t -> representable F64 t ->
  @build f64 (Num_f64 L) m t = Ok d -> 0 < tree_len t -> tolerable t = true ->
  @check_dht_algorithm f64 (Num_f64 L) _ signal d (tree_len t) = Ok tt.
Proof. exact TestPass.passes64. Qed.
Print Assumptions C58_f64.
(** a MixedRadix of a MixedRadix2xn and a SplitRadix *)
Example C58_case : tolerable (Mixed (Two Fly3) (Split Fly2 Fly4)) = true /\ tree_len (Mixed (Two Fly3) (Split Fly2 Fly4)) = 48 /\
  uniform F32 flat32 /\ uniform F64 flat64 /\ exists L, accurate L.
Proof. split; [reflexivity|]. split; [reflexivity|]. split; [exact flat32_ok|]. split; [exact flat64_ok|]. eexists. exact accurate_exists. Qed.
Theorem C58_scalar : forall L signal, accurate L -> uniform F32 signal ->
  let N := Num_f32 L in
  test_mixed_radix_correct signal = Ok tt /\ test_mixed_radix_2xn_correct signal = Ok tt /\
  test_mixed_radix_3xn_correct signal = Ok tt /\ test_mixed_radix_4xn_correct signal = Ok tt /\
  test_mixed_radix_5xn_correct signal = Ok tt /\ test_mixed_radix_6xn_correct signal = Ok tt /\
  test_radix4_correct signal = Ok tt /\ test_split_radix_correct signal = Ok tt /\
  (forall m, test_raders_correct signal m = Ok tt) /\
  test_reversal_property signal = Ok tt /\ test_double_reversal_property signal = Ok tt /\
  test_mixed_radix_inner_scratch (T := f32) = Ok tt.
Proof. exact C58_scalar_proof. Qed.
Print Assumptions C58_scalar.
Theorem C58_butterflies : forall L s32 s64, accurate L -> uniform F32 s32 -> uniform F64 s64 ->
  test_butterfly s32 s64 L (@butterfly2) 2 = Ok tt /\ test_butterfly s32 s64 L (@butterfly3) 3 = Ok tt /\
  test_butterfly s32 s64 L (@butterfly4) 4 = Ok tt /\ test_butterfly s32 s64 L (@butterfly5) 5 = Ok tt /\
  test_butterfly s32 s64 L (@butterfly6) 6 = Ok tt /\ test_butterfly s32 s64 L (@butterfly8) 8 = Ok tt /\
  test_butterfly s32 s64 L (@butterfly9) 9 = Ok tt /\ test_butterfly s32 s64 L (@butterfly16) 16 = Ok tt.
Proof. exact C58_butterflies_proof. Qed.
Print Assumptions C58_butterflies.
Theorem C58_naive : forall L L32 signal, accurate L -> accurate32 L32 -> uniform F32 signal -> test_matches_dht L L32 signal = Ok tt.
Proof. exact suite_naive. Qed.
Print Assumptions C58_naive.
Example C58_naive_case : (exists L, accurate L) /\ (exists L, accurate32 L) /\ uniform F32 flat32.
Proof. split; [eexists; exact accurate_exists|]. split; [eexists; exact accurate32_exists|exact flat32_ok]. Qed.

(** ** C59: what a pass of the oracle means *)
Local Open Scope R_scope.
Theorem C59_compare_f32 : forall L (v1 v2 : list f32), usz (length v1) -> @compare_real_vectors f32 (Num_f32 L) _ v1 v2 = Ok true ->
  length v1 = length v2 /\ (0 < length v1)%nat /\ Forall (fun v => is_finite v = true) v1 /\ Forall (fun v => is_finite v = true) v2 /\
  (1 - bpow radix2 (-24)) ^ (length v1 + 1) * total_difference (map B2R v1) (map B2R v2) <= (/ 10 + bpow radix2 (-50)) * INR (length v1).
Proof. exact TestSound.sound32. Qed.
Print Assumptions C59_compare_f32.
Theorem C59_compare_f64 : forall L (v1 v2 : list f64), usz (length v1) -> @compare_real_vectors f64 (Num_f64 L) _ v1 v2 = Ok true ->
  length v1 = length v2 /\ (0 < length v1)%nat /\ Forall (fun v => is_finite v = true) v1 /\ Forall (fun v => is_finite v = true) v2 /\
  (1 - bpow radix2 (-53)) ^ (length v1 + 1) * total_difference (map B2R v1) (map B2R v2) <= (/ 10 + bpow radix2 (-50)) * INR (length v1).
Proof. exact TestSound.sound64. Qed.
Print Assumptions C59_compare_f64.
Example C59_compare_case : forall L, @compare_real_vectors f32 (Num_f32 L) _ [f32_of_usize 1; f32_of_usize 2] [f32_of_usize 1; f32_of_usize 2] = Ok true /\
  @compare_real_vectors f64 (Num_f64 L) _ [f64_of_usize 1; f64_tenth] [f64_of_usize 1; B754_zero false] = Ok true.
Proof. split; vm_compute; reflexivity. Qed.
Theorem C59_f32 : forall L signal d n, accurate L -> uniform F32 signal -> (0 < n)%nat -> INR n <= 10000 ->
  @check_dht_algorithm f32 (Num_f32 L) _ signal d n = Ok tt ->
  dht_len d = n /\ exists y, @dht_process f32 (Num_f32 L) d (signal n) = Ok y /\ length y = n /\ Forall (fun v => is_finite v = true) y /\
    total_difference (dht_spec (map B2R (signal n))) (map B2R y) <= (101 / 1000 + INR n * INR (n + 3) / 400000) * INR n.
Proof. exact C59_f32_proof. Qed.
Print Assumptions C59_f32.
Theorem C59_f64 : forall L signal d n, accurate L -> uniform F64 signal -> (0 < n)%nat -> INR n <= 10000 ->
  @check_dht_algorithm f64 (Num_f64 L) _ signal d n = Ok tt ->
  dht_len d = n /\ exists y, @dht_process f64 (Num_f64 L) d (signal n) = Ok y /\ length y = n /\ Forall (fun v => is_finite v = true) y /\
    total_difference (dht_spec (map B2R (signal n))) (map B2R y) <= (101 / 1000 + INR n * INR (n + 3) / 400000) * INR n.
Proof. exact C59_f64_proof. Qed.
Print Assumptions C59_f64.
Example C59_case : (exists L (d : Dht f32), accurate L /\ @check_dht_algorithm f32 (Num_f32 L) _ flat32 d 4 = Ok tt) /\
  exists L (d : Dht f64), accurate L /\ @check_dht_algorithm f64 (Num_f64 L) _ flat64 d 4 = Ok tt.
Proof. exact C59_case_proof. Qed.

(** ** C60: wrong programs that the oracle accepts *)
(** the output buffer is not prefilled with garbage but with the expected output *)
Theorem C60_output_f32 : forall L signal d n, accurate L -> length (signal n) = n -> (0 < n)%nat -> INR n <= 80000 ->
  @check_dht_algorithm f32 (Num_f32 L) _ signal d n = Ok tt ->
  @check_dht_algorithm f32 (Num_f32 L) _ signal (ignores_output d) n = Ok tt /\ forall g, ~ transforms (ignores_output d) g.
Proof. exact C60_output_f32_proof. Qed.
Print Assumptions C60_output_f32.
Theorem C60_output_f64 : forall L signal d n, accurate L -> length (signal n) = n -> (0 < n)%nat -> INR n <= 80000 ->
  @check_dht_algorithm f64 (Num_f64 L) _ signal d n = Ok tt ->
  @check_dht_algorithm f64 (Num_f64 L) _ signal (ignores_output d) n = Ok tt /\ forall g, ~ transforms (ignores_output d) g.
Proof. exact C60_output_f64_proof. Qed.
Print Assumptions C60_output_f64.
(** only one chunk is tried *)
Theorem C60_chunks : forall T (NT : Num T) (FT : FloatNum T) signal (d : Dht T) n, length (signal n) = n -> (0 < n)%nat ->
  check_dht_algorithm signal d n = Ok tt ->
  check_dht_algorithm signal (first_chunk_only d) n = Ok tt /\
  forall f x, transforms d f -> length x = n -> f x <> x -> forall g, ~ transforms (first_chunk_only d) g.
Proof. exact C60_chunks_proof. Qed.
Print Assumptions C60_chunks.
Example C60_case : exists L f x, accurate L /\ @check_dht_algorithm f32 (Num_f32 L) _ flat32 (@butterfly2 f32 (Num_f32 L)) 2 = Ok tt /\
  transforms (@butterfly2 f32 (Num_f32 L)) f /\ length x = 2%nat /\ f x <> x.
Proof. exact C60_case_proof. Qed.
(** length 0 cannot be tested: the mean is 0/0 *)
Theorem C60_zero : forall L s32 s64 (d32 : Dht f32) (d64 : Dht f64), s32 0%nat = [] -> s64 0%nat = [] ->
  @check_dht_algorithm f32 (Num_f32 L) _ s32 d32 0 <> Ok tt /\ @check_dht_algorithm f64 (Num_f64 L) _ s64 d64 0 <> Ok tt.
Proof. exact C60_zero_proof. Qed.
Print Assumptions C60_zero.
Example C60_zero_case : flat32 0 = [] /\ flat64 0 = [].
Proof. split; reflexivity. Qed.
(** the f64 instance of C45, whose results are only good to f32 precision, passes *)
Theorem C60_precision : forall L signal, accurate L -> uniform F64 signal ->
  let d := @mixed_radix f64 (Num_f64 L) (@butterfly2 f64 (Num_f64 L)) (@butterfly2 f64 (Num_f64 L)) in
  @check_dht_algorithm f64 (Num_f64 L) _ signal d 4 = Ok tt /\
  exists x y, length x = dht_len d /\ Forall (fun v => is_finite v = true) x /\ @dht_process f64 (Num_f64 L) d x = Ok y /\
    bpow radix2 (-26) * size F64 x < Rabs (B2R (nth 1 y (B754_zero false)) - dht_at (map B2R x) 1).
Proof. intros L signal A Us. split; [exact (C60_mixed_proof L signal A Us)|exact (C45_proof L A)]. Qed.
Print Assumptions C60_precision.

(** ** C61: MixedRadix supplies enough scratch to inner instances that do nothing but insist on the sizes they advertise *)
Local Close Scope R_scope.
Theorem C61_mixed : forall T (NT : Num T) (width height : Dht T), obliging width -> obliging height -> obliging (mixed_radix width height).
Proof. exact @mixed_obliging. Qed.
Print Assumptions C61_mixed.
Theorem C61_test : forall T (NT : Num T) w wi wo h hi ho, 0 < w -> 0 < h ->
  test_inner_scratch (big_scratch_algorithm w wi wo) (big_scratch_algorithm h hi ho : Dht T) = Ok tt.
Proof. exact C61_test_proof. Qed.
Print Assumptions C61_test.
Example C61_case : forall T (NT : Num T), obliging (big_scratch_algorithm 3 1000 2000 : Dht T).
Proof. intros. apply big_obliging. Qed.
