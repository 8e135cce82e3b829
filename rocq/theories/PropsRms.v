(** * Property C64: errors in the Euclidean norm

    C41 bounds every output by the size of the whole input times a gain that doubles with every layer.  In the Euclidean
    norm the stages of the algorithms are isometries up to a factor, so the relative error of the whole output only
    accumulates one term per layer: it grows with the logarithm of the length. *)
From Verif Require Import NumSpec PropsRmsProof.
From Coq Require Import Reals Lra NArith.
Local Open Scope R_scope.

(** every tree: relative error ratio t - 1, where ratio multiplies one factor per layer *)
Theorem C64_trees : forall T (F : fmt T) (N : Num T), rounded F N -> forall m t d,
  in_range t -> storable F t -> @build T N m t = Ok d ->
  rms_close F d (ratio (fu F) (ftau F) (frho F) t) (headroom (fu F) (ftau F) (frho F) t).
Proof. intros T. exact tree_rms. Qed.
Print Assumptions C64_trees.

(** Rader's algorithm over an inner instance of small relative error loses a factor of at most 12 sqrt p for a prime p *)
Theorem C64_rader : forall T (F : fmt T) (N : Num T), rounded F N -> forall m t d,
  in_range (Rader t) -> storable F (Rader t) -> ratio (fu F) (ftau F) (frho F) t <= 129 / 128 -> @build T N m (Rader t) = Ok d ->
  rms_close F d (1 + 12 * sqrt (INR (dht_len d)) * (rader_products (fu F) (ftau F) (ratio (fu F) (ftau F) (frho F) t) - 1))
    (headroom (fu F) (ftau F) (frho F) (Rader t)).
Proof. intros T. exact rader_rms. Qed.
Print Assumptions C64_rader.
Example C64_rader_case : forall L m, accurate L -> in_range (Rader Fly16) /\ storable F64 (Rader Fly16) /\
  ratio (fu F64) (ftau F64) (frho F64) Fly16 <= 129 / 128 /\ exists d, @build _ (Num_f64 L) m (Rader Fly16) = Ok d.
Proof. exact C64_rader_case_proof. Qed.

(** against the length of the exact transform *)
Theorem C64_relative : forall T (F : fmt T) (N : Num T), rounded F N -> forall d r C, rms_close F d r C ->
  exists f, transforms d f /\
    forall x, length x = dht_len d -> Forall (ffin F) x ->
      let X := dht_spec (map (fval F) x) in
      C * (norm2 X + INR (dht_len d) * flo F) <= fhi F ->
      Forall (ffin F) (f x) /\ distance (map (fval F) (f x)) X <= (r - 1) * (norm2 X + INR (dht_len d) * flo F).
Proof. intros T. exact relative. Qed.
Print Assumptions C64_relative.

(** energy is kept (C23), and transforming twice multiplies by the length (C21), up to these errors *)
Theorem C64_energy : forall T (F : fmt T) d r C, rms_close F d r C ->
  exists f, transforms d f /\
    forall x, length x = dht_len d -> Forall (ffin F) x -> C * (sqrt (INR (dht_len d)) * scale F x) <= fhi F ->
      Rabs (norm2 (map (fval F) (f x)) - sqrt (INR (dht_len d)) * norm2 (map (fval F) x)) <= (r - 1) * (sqrt (INR (dht_len d)) * scale F x).
Proof. intros T. exact energy. Qed.
Print Assumptions C64_energy.
Theorem C64_twice : forall T (F : fmt T) d r C, rms_close F d r C ->
  exists f, transforms d f /\
    forall x, length x = dht_len d -> Forall (ffin F) x -> C * r * (INR (dht_len d) * scale F x) <= fhi F ->
      Forall (ffin F) (f (f x)) /\
      distance (map (fval F) (f (f x))) (map (fun v => INR (dht_len d) * fval F v) x) <= (r * r - 1) * (INR (dht_len d) * scale F x).
Proof. intros T. exact twice. Qed.
Print Assumptions C64_twice.

(** length 16 * 4^k from MixedRadix4xn over Butterfly16 *)
Theorem C64_fours_f32 : forall L m k, accurate L -> usz (8 * (16 * 4 ^ k)) ->
  relative_error F32 (Num_f32 L) m (fours k) (16 * 4 ^ k) ((INR k + 1) * bpow radix2 (-18)) 8.
Proof. exact C64_fours32_proof. Qed.
Print Assumptions C64_fours_f32.
Theorem C64_fours_f64 : forall L m k, accurate L -> usz (8 * (16 * 4 ^ k)) ->
  relative_error F64 (Num_f64 L) m (fours k) (16 * 4 ^ k) ((INR k + 1) * bpow radix2 (-42)) 8.
Proof. exact C64_fours64_proof. Qed.
Print Assumptions C64_fours_f64.

(** length 16 * 2^k from SplitRadix over Butterfly8 and Butterfly16 *)
Theorem C64_splits_f32 : forall L m k, accurate L -> usz (8 * (16 * 2 ^ k)) ->
  relative_error F32 (Num_f32 L) m (snd (splits k)) (16 * 2 ^ k) ((INR k + 4) * bpow radix2 (-20)) 8.
Proof. exact C64_splits32_proof. Qed.
Print Assumptions C64_splits_f32.
Theorem C64_splits_f64 : forall L m k, accurate L -> usz (8 * (16 * 2 ^ k)) ->
  relative_error F64 (Num_f64 L) m (snd (splits k)) (16 * 2 ^ k) ((INR k + 3) * bpow radix2 (-44)) 8.
Proof. exact C64_splits64_proof. Qed.
Print Assumptions C64_splits_f64.

(** primes 16 * 2^k + 1 from RadersAlgorithm over these *)
Theorem C64_primes_f32 : forall L m k, accurate L -> nprime (N.of_nat (16 * 2 ^ k + 1)) -> (N.of_nat (16 * 2 ^ k + 1) <= 2 ^ 32)%N ->
  relative_error F32 (Num_f32 L) m (Rader (snd (splits k))) (16 * 2 ^ k + 1)
    (12 * sqrt (INR (16 * 2 ^ k + 1)) * ((INR k + 5) * bpow radix2 (-20))) 64.
Proof. exact C64_primes32_proof. Qed.
Print Assumptions C64_primes_f32.
Theorem C64_primes_f64 : forall L m k, accurate L -> nprime (N.of_nat (16 * 2 ^ k + 1)) -> (N.of_nat (16 * 2 ^ k + 1) <= 2 ^ 32)%N ->
  relative_error F64 (Num_f64 L) m (Rader (snd (splits k))) (16 * 2 ^ k + 1)
    (12 * sqrt (INR (16 * 2 ^ k + 1)) * ((INR k + 4) * bpow radix2 (-44))) 64.
Proof. exact C64_primes64_proof. Qed.
Print Assumptions C64_primes_f64.

(** about a million samples: relative error below 1/20000 in f32 and 1/400000000000 in f64 *)
Example C64_case : exists L, accurate L.
Proof. eexists. exact accurate_exists. Qed.
Example C64_million : forall L m, accurate L -> exists n, N.of_nat n = 1048576%N /\
  relative_error F32 (Num_f32 L) m (fours 8) n (/ 20000) 8 /\ relative_error F64 (Num_f64 L) m (fours 8) n (/ 400000000000) 8 /\
  relative_error F32 (Num_f32 L) m (snd (splits 16)) n (/ 50000) 8 /\ relative_error F64 (Num_f64 L) m (snd (splits 16)) n (/ 900000000000) 8.
Proof. exact C64_million_proof. Qed.
Example C64_65537 : forall L m, accurate L -> exists n, N.of_nat n = 65537%N /\
  relative_error F32 (Num_f32 L) m (Rader (snd (splits 12))) n (/ 20) 64 /\
  relative_error F64 (Num_f64 L) m (Rader (snd (splits 12))) n (/ 340000000) 64.
Proof. exact C64_65537_proof. Qed.
