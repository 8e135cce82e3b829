(** * Property C67: integers survive two transforms

    [nearest], [survives] are defined in RoundSpec.v; [rms_close], [fours], [splits] in RmsSpec.v. *)
From Verif Require Import PropsRoundProof NumSpec IeeeSpec.
From Flocq Require Import Core.
From Coq Require Import Reals NArith.
Local Open Scope R_scope.

(** ** C67: transforming twice, dividing by n and rounding recovers integers *)
Theorem C67_any : forall T (F : fmt T) (N : Num T), rounded F N -> forall m t d eps C B, @build T N m t = Ok d -> rms_close F d (1 + eps) C ->
  0 <= B -> eps * (sqrt (INR (dht_len d)) * (B + 1)) <= / 5 ->
  C * (1 + eps) * (INR (dht_len d) * (sqrt (INR (dht_len d)) * (B + 1))) <= fhi F -> survives F N m t (dht_len d) B.
Proof. exact survive_proof. Qed.
Print Assumptions C67_any.

(** length 16 * 4^k from MixedRadix4xn over Butterfly16 *)
Theorem C67_fours_f32 : forall L m k B, accurate L -> usz (8 * (16 * 4 ^ k)) -> 0 <= B ->
  5 * (INR k + 1) * (sqrt (INR (16 * 4 ^ k)) * (B + 1)) <= bpow radix2 18 -> survives F32 (Num_f32 L) m (fours k) (16 * 4 ^ k) B.
Proof. exact C67_fours32_proof. Qed.
Print Assumptions C67_fours_f32.
Theorem C67_fours_f64 : forall L m k B, accurate L -> usz (8 * (16 * 4 ^ k)) -> 0 <= B ->
  5 * (INR k + 1) * (sqrt (INR (16 * 4 ^ k)) * (B + 1)) <= bpow radix2 42 -> survives F64 (Num_f64 L) m (fours k) (16 * 4 ^ k) B.
Proof. exact C67_fours64_proof. Qed.
Print Assumptions C67_fours_f64.

(** length 16 * 2^k from SplitRadix over Butterfly8 and Butterfly16 *)
Theorem C67_splits_f32 : forall L m k B, accurate L -> usz (8 * (16 * 2 ^ k)) -> 0 <= B ->
  5 * (INR k + 4) * (sqrt (INR (16 * 2 ^ k)) * (B + 1)) <= bpow radix2 20 -> survives F32 (Num_f32 L) m (snd (splits k)) (16 * 2 ^ k) B.
Proof. exact C67_splits32_proof. Qed.
Print Assumptions C67_splits_f32.
Theorem C67_splits_f64 : forall L m k B, accurate L -> usz (8 * (16 * 2 ^ k)) -> 0 <= B ->
  5 * (INR k + 3) * (sqrt (INR (16 * 2 ^ k)) * (B + 1)) <= bpow radix2 44 -> survives F64 (Num_f64 L) m (snd (splits k)) (16 * 2 ^ k) B.
Proof. exact C67_splits64_proof. Qed.
Print Assumptions C67_splits_f64.

(** primes 16 * 2^k + 1 from RadersAlgorithm over these *)
Theorem C67_primes_f32 : forall k B L m, accurate L -> nprime (N.of_nat (16 * 2 ^ k + 1)) -> (N.of_nat (16 * 2 ^ k + 1) <= 2 ^ 32)%N -> 0 <= B ->
  60 * (INR k + 5) * (INR (16 * 2 ^ k + 1) * (B + 1)) <= bpow radix2 20 -> survives F32 (Num_f32 L) m (Rader (snd (splits k))) (16 * 2 ^ k + 1) B.
Proof. exact C67_primes32_proof. Qed.
Print Assumptions C67_primes_f32.
Theorem C67_primes_f64 : forall k B L m, accurate L -> nprime (N.of_nat (16 * 2 ^ k + 1)) -> (N.of_nat (16 * 2 ^ k + 1) <= 2 ^ 32)%N -> 0 <= B ->
  60 * (INR k + 4) * (INR (16 * 2 ^ k + 1) * (B + 1)) <= bpow radix2 44 -> survives F64 (Num_f64 L) m (Rader (snd (splits k))) (16 * 2 ^ k + 1) B.
Proof. exact C67_primes64_proof. Qed.
Print Assumptions C67_primes_f64.

(** 8-bit samples at length 1024 in f32, 16-bit samples at 2^20 and at 65537 in f64 *)
Example C67_case : forall L m, accurate L ->
  survives F32 (Num_f32 L) m (snd (splits 6)) 1024 255 /\
  (exists n, N.of_nat n = 1048576%N /\ survives F64 (Num_f64 L) m (snd (splits 16)) n 32768) /\
  (exists n, N.of_nat n = 65537%N /\ survives F64 (Num_f64 L) m (Rader (snd (splits 12))) n 32768).
Proof. exact C67_case_proof. Qed.
