(** * Property C76: exact convolution of integers

    [combine_spectra], [zconv], [convolves] are defined in ConvSpec.v; [rms_close], [fours], [splits] in RmsSpec.v. *)
From Verif Require Import PropsConvProof NumSpec IeeeSpec.
From Flocq Require Import Core.
From Coq Require Import Reals NArith.
Local Open Scope R_scope.

(** any instance of relative error [eps] *)
Theorem C76_any : forall T (F : fmt T) (N : Num T), rounded F N -> forall m t d eps C A B, @build T N m t = Ok d -> rms_close F d (1 + eps) C ->
  (0 < dht_len d)%nat -> fu F <= eps -> 0 <= A -> 0 <= B -> let n := INR (dht_len d) in
  32 * eps * (n * sqrt n * ((A + 1) * (B + 1))) <= 1 -> C * (5 * (n * (n * sqrt n * ((A + 1) * (B + 1))))) <= fhi F ->
  convolves F N m t (dht_len d) A B.
Proof. exact convolve_proof. Qed.
Print Assumptions C76_any.

(** length 16 * 4^k from MixedRadix4xn over Butterfly16 *)
Theorem C76_fours_f32 : forall L m k A B, accurate L -> usz (8 * (16 * 4 ^ k)) -> 0 <= A -> 0 <= B -> let n := INR (16 * 4 ^ k) in
  32 * (INR k + 1) * (n * sqrt n * ((A + 1) * (B + 1))) <= bpow radix2 18 -> convolves F32 (Num_f32 L) m (fours k) (16 * 4 ^ k) A B.
Proof. exact C76_fours32_proof. Qed.
Print Assumptions C76_fours_f32.
Theorem C76_fours_f64 : forall L m k A B, accurate L -> usz (8 * (16 * 4 ^ k)) -> 0 <= A -> 0 <= B -> let n := INR (16 * 4 ^ k) in
  32 * (INR k + 1) * (n * sqrt n * ((A + 1) * (B + 1))) <= bpow radix2 42 -> convolves F64 (Num_f64 L) m (fours k) (16 * 4 ^ k) A B.
Proof. exact C76_fours64_proof. Qed.
Print Assumptions C76_fours_f64.

(** length 16 * 2^k from SplitRadix over Butterfly8 and Butterfly16 *)
Theorem C76_splits_f32 : forall L m k A B, accurate L -> usz (8 * (16 * 2 ^ k)) -> 0 <= A -> 0 <= B -> let n := INR (16 * 2 ^ k) in
  32 * (INR k + 4) * (n * sqrt n * ((A + 1) * (B + 1))) <= bpow radix2 20 -> convolves F32 (Num_f32 L) m (snd (splits k)) (16 * 2 ^ k) A B.
Proof. exact C76_splits32_proof. Qed.
Print Assumptions C76_splits_f32.
Theorem C76_splits_f64 : forall L m k A B, accurate L -> usz (8 * (16 * 2 ^ k)) -> 0 <= A -> 0 <= B -> let n := INR (16 * 2 ^ k) in
  32 * (INR k + 3) * (n * sqrt n * ((A + 1) * (B + 1))) <= bpow radix2 44 -> convolves F64 (Num_f64 L) m (snd (splits k)) (16 * 2 ^ k) A B.
Proof. exact C76_splits64_proof. Qed.
Print Assumptions C76_splits_f64.

(** primes 16 * 2^k + 1 from RadersAlgorithm over these *)
Theorem C76_primes_f64 : forall k A B L m, accurate L -> nprime (N.of_nat (16 * 2 ^ k + 1)) -> (N.of_nat (16 * 2 ^ k + 1) <= 2 ^ 32)%N ->
  0 <= A -> 0 <= B -> let n := INR (16 * 2 ^ k + 1) in
  384 * (INR k + 4) * (n * n * ((A + 1) * (B + 1))) <= bpow radix2 44 ->
  convolves F64 (Num_f64 L) m (Rader (snd (splits k))) (16 * 2 ^ k + 1) A B.
Proof. exact C76_primes64_proof. Qed.
Print Assumptions C76_primes_f64.

(** numbers up to 10 at length 16 in f32; ten-bit numbers at length 1024 and bytes at length 257 in f64 *)
Example C76_case : forall L m, accurate L ->
  convolves F32 (Num_f32 L) m Fly16 16 10 10 /\ convolves F64 (Num_f64 L) m (snd (splits 6)) 1024 1023 1023 /\
  convolves F64 (Num_f64 L) m (Rader (snd (splits 4))) 257 255 255.
Proof. exact C76_case_proof. Qed.
(** [zconv] is the convolution *)
Example C76_zconv : zconv (1 :: 2 :: 3 :: nil)%Z (10 :: 20 :: 30 :: nil)%Z = (130 :: 130 :: 100 :: nil)%Z.
Proof. reflexivity. Qed.
