(** * Specification vocabulary: the signals and tolerances of the test suite *)
From Verif Require Export TestUtils FloatSpec IeeeSpec.
From Coq Require Import ZArith.

(** [zgain t] is the integer [gain t] (FloatSpec.v) *)
Fixpoint zgain (t : tree) : Z :=
  match t with
  | Fly6 => 4 | Fly9 => 12
  | Mixed w h => 4 * zgain w * zgain h
  | Two t => 2 * zgain t | Four t => 2 * zgain t
  | Three t => 8 * zgain t | Five t => 8 * zgain t | Six t => 16 * zgain t
  | Split q h => Z.max (zgain h) (2 * zgain q)
  | Rad4 _ => 4
  | Rader t => 4 * Z.of_nat (tree_len t) * (zgain t * zgain t * zgain t)
  | _ => 2
  end%Z.
(** roundings times growth, of the composition and of the naive algorithm of the same length *)
Definition tolerable (t : tree) : bool :=
  let '(a, b, c) := roundings t in
  let n := Z.of_nat (tree_len t) in
  (20 * n * (Z.of_nat (a + b + c) * zgain t + 2 * (n + 3)) <=? 1500000)%Z.

Local Open Scope R_scope.
(** what the random signals are: [n] finite numbers between 0 and 10 *)
Definition uniform {T} (F : fmt T) (signal : nat -> list T) : Prop :=
  forall n, length (signal n) = n /\ Forall (fun v => ffin F v /\ 0 <= fval F v <= 10) (signal n).
(** f32::cos and f32::sin: on finite angles up to 128 in magnitude, absolute error at most 2^-22 *)
Definition accurate32 (L : libm32) : Prop :=
  forall a : f32, is_finite a = true -> Rabs (B2R a) <= 128 ->
    (is_finite (lcos32 L a) = true /\ Rabs (B2R (lcos32 L a) - cos (B2R a)) <= bpow radix2 (-22)) /\
    (is_finite (lsin32 L a) = true /\ Rabs (B2R (lsin32 L a) - sin (B2R a)) <= bpow radix2 (-22)).

(** sum_k |x[k] - y[k]| *)
Definition total_difference (x y : list R) : R := rsum (length x) (fun k => Rabs (nth k x 0 - nth k y 0)).

(** an instance that returns from every correctly sized call, whatever it computes; the buffers keep their lengths *)
Definition obliging {T} (d : Dht T) : Prop := (0 < dht_len d)%nat ->
  (forall buffer scratch, sized_inplace d buffer scratch -> exists buffer' scratch',
     dht_process_with_scratch d buffer scratch = Ok (buffer', scratch') /\
     length buffer' = length buffer /\ length scratch' = length scratch) /\
  (forall input output scratch, sized_oop d input output scratch -> exists input' output' scratch',
     dht_process_oop d input output scratch = Ok (input', output', scratch') /\
     length input' = length input /\ length output' = length output /\ length scratch' = length scratch).

(** two wrong programs: out of place nothing is written; only the first chunk of a buffer is processed *)
Definition ignores_output {T} (d : Dht T) : Dht T :=
  mkDht (dht_len d) (dht_inplace_scratch d) (dht_oop_scratch d) (dht_process_with_scratch d)
    (fun input output scratch => Ok (input, output, scratch)).
Definition first_chunk_only {T} (d : Dht T) : Dht T :=
  mkDht (dht_len d) (dht_inplace_scratch d) (dht_oop_scratch d)
    (fun buffer scratch =>
       '(chunk, rest) <- split_at buffer (dht_len d) ;;
       '(chunk, scratch) <- dht_process_with_scratch d chunk scratch ;;
       Ok (chunk ++ rest, scratch))
    (fun input output scratch =>
       '(chunk, rest) <- split_at input (dht_len d) ;;
       '(out_chunk, out_rest) <- split_at output (dht_len d) ;;
       '(chunk, out_chunk, scratch) <- dht_process_oop d chunk out_chunk scratch ;;
       Ok (chunk ++ rest, out_chunk ++ out_rest, scratch)).
