(** * Properties C01-C12 and C21-C25: what the instances compute over exact reals

    [RNum c] reads every operation on the number type as exact real arithmetic and uses [c] for the constant
    sqrt(1/2) of src/scalar/mixed_radix.rs and radix3/5/6.rs; [rh] is the exact sqrt(1/2).
    [transforms d f] (Api.v) is the contract of the Dht trait with per-chunk function [f]; [dht_spec]
    (Spec.v) is the discrete Hartley transform. *)
From Verif Require Import ApiReal PropsExactProof.
From Verif Require Import Radix4Real.
From Coq Require Import Reals Lra Lia NArith.

(** ** C01 *)
Theorem C01_naive : forall (c : R) n, transforms (@dht_naive R (RNum c) n) dht_spec.
Proof. exact C01_proof. Qed.
Print Assumptions C01_naive.
Theorem C01_process : forall (c : R) (d : Dht R) f xs, transforms d f -> 0 < dht_len d -> chunks_of (dht_len d) xs ->
  @dht_process R (RNum c) d (concat xs) = Ok (concat (map f xs)).
Proof. exact C01_process_proof. Qed.
Print Assumptions C01_process.
Example C01_case : @dht_process R (RNum rh) (@dht_naive R (RNum rh) 2) [3; 5; 7; 1]%R = Ok [8; -2; 8; 6]%R.
Proof. exact C01_case_proof. Qed.

(** ** C02 *)
Theorem C02_butterflies : forall c : R, let N := RNum c in
  transforms (@butterfly1 R) dht_spec /\ transforms (@butterfly2 R N) dht_spec /\
  transforms (@butterfly3 R N) dht_spec /\ transforms (@butterfly4 R N) dht_spec /\
  transforms (@butterfly5 R N) dht_spec /\ transforms (@butterfly6 R N) dht_spec /\
  transforms (@butterfly8 R N) dht_spec /\ transforms (@butterfly9 R N) dht_spec /\
  transforms (@butterfly16 R N) dht_spec.
Proof. exact C02_proof. Qed.
Print Assumptions C02_butterflies.
(** the lengths are the ones in the names *)
Example C02_case : let N := RNum rh in
  map (@dht_len R) [butterfly1; @butterfly2 R N; @butterfly3 R N; @butterfly4 R N; @butterfly5 R N; @butterfly6 R N;
                    @butterfly8 R N; @butterfly9 R N; @butterfly16 R N] = [1; 2; 3; 4; 5; 6; 8; 9; 16].
Proof. reflexivity. Qed.

(** ** C03 *)
Theorem C03_mixed_radix : forall dw dh : Dht R, transforms dw dht_spec -> transforms dh dht_spec ->
  dht_len (@mixed_radix R (RNum rh) dw dh) = dht_len dw * dht_len dh /\
  transforms (@mixed_radix R (RNum rh) dw dh) dht_spec.
Proof. exact C03_proof. Qed.
Print Assumptions C03_mixed_radix.
Example C03_case : transforms (@mixed_radix R (RNum rh) (@dht_naive R (RNum rh) 7) (@butterfly4 R (RNum rh))) dht_spec.
Proof. exact C03_case_proof. Qed.

(** ** C04-C08: the inner instance may use in-place scratch up to the outer length and no out-of-place scratch *)
Theorem C04_2xn : forall (c : R) d, transforms d dht_spec -> dht_inplace_scratch d <= 2 * dht_len d -> dht_oop_scratch d = 0 ->
  dht_len (@mixed_radix_2xn R (RNum c) d) = 2 * dht_len d /\ transforms (@mixed_radix_2xn R (RNum c) d) dht_spec.
Proof. exact C04_proof. Qed.
Print Assumptions C04_2xn.
Theorem C05_3xn : forall d, transforms d dht_spec -> dht_inplace_scratch d <= 3 * dht_len d -> dht_oop_scratch d = 0 ->
  dht_len (@mixed_radix_3xn R (RNum rh) d) = 3 * dht_len d /\ transforms (@mixed_radix_3xn R (RNum rh) d) dht_spec.
Proof. exact C05_proof. Qed.
Print Assumptions C05_3xn.
Theorem C06_4xn : forall (c : R) d, transforms d dht_spec -> dht_inplace_scratch d <= 4 * dht_len d -> dht_oop_scratch d = 0 ->
  dht_len (@mixed_radix_4xn R (RNum c) d) = 4 * dht_len d /\ transforms (@mixed_radix_4xn R (RNum c) d) dht_spec.
Proof. exact C06_proof. Qed.
Print Assumptions C06_4xn.
Theorem C07_5xn : forall d, transforms d dht_spec -> dht_inplace_scratch d <= 5 * dht_len d -> dht_oop_scratch d = 0 ->
  dht_len (@mixed_radix_5xn R (RNum rh) d) = 5 * dht_len d /\ transforms (@mixed_radix_5xn R (RNum rh) d) dht_spec.
Proof. exact C07_proof. Qed.
Print Assumptions C07_5xn.
Theorem C08_6xn : forall d, transforms d dht_spec -> dht_inplace_scratch d <= 6 * dht_len d -> dht_oop_scratch d = 0 ->
  dht_len (@mixed_radix_6xn R (RNum rh) d) = 6 * dht_len d /\ transforms (@mixed_radix_6xn R (RNum rh) d) dht_spec.
Proof. exact C08_proof. Qed.
Print Assumptions C08_6xn.
(** the hypotheses hold of an inner instance that needs scratch *)
Example C04_C08_case : let d := @dht_naive R (RNum rh) 7 in
  transforms d dht_spec /\ dht_inplace_scratch d <= 2 * dht_len d /\ dht_oop_scratch d = 0 /\ dht_inplace_scratch d = 7.
Proof. exact C04_case_proof. Qed.

(** ** C09 *)
Theorem C09_split_radix : forall (c : R) dq dh, transforms dq dht_spec -> transforms dh dht_spec ->
  dht_len dh = dht_len dq * 2 ->
  dht_inplace_scratch dh <= dht_len dh -> dht_inplace_scratch dq <= dht_len dq * 4 -> dht_oop_scratch dq = 0 ->
  exists d, @split_radix R (RNum c) dq dh = Ok d /\ dht_len d = 4 * dht_len dq /\ transforms d dht_spec.
Proof. exact C09_proof. Qed.
Print Assumptions C09_split_radix.
Example C09_case : let dq := @dht_naive R (RNum rh) 5 in let dh := @mixed_radix_2xn R (RNum rh) dq in
  transforms dq dht_spec /\ transforms dh dht_spec /\ dht_len dh = dht_len dq * 2 /\
  dht_inplace_scratch dh <= dht_len dh /\ dht_inplace_scratch dq <= dht_len dq * 4 /\ dht_oop_scratch dq = 0.
Proof. exact C09_case_proof. Qed.

(** ** C10: true up to 64, false from 128 on *)
Theorem C10_radix4_upto_64_partial : forall (c : R) k, k <= 6 ->
  exists d, @radix4 R (RNum c) (2 ^ k) = Ok d /\ dht_len d = 2 ^ k /\ transforms d dht_spec.
Proof. exact C10_partial_proof. Qed.
Print Assumptions C10_radix4_upto_64_partial.
Theorem C10_radix4_refuted : forall (c : R) k, 7 <= k -> exists d x y,
  @radix4 R (RNum c) (2 ^ k) = Ok d /\ length x = 2 ^ k /\
  @dht_process R (RNum c) d x = Ok y /\ y <> dht_spec x.
Proof. exact api_radix4_wrong. Qed.
Print Assumptions C10_radix4_refuted.
(** what it computes at every length: the DHT of the input reordered by [r4_index k] *)
Theorem C10_radix4_computes : forall (c : R) k, exists d, @radix4 R (RNum c) (2 ^ k) = Ok d /\ dht_len d = 2 ^ k /\
  transforms d (fun x => dht_spec (map (fun j => nth (r4_index k j) x 0%R) (seq 0 (length x)))).
Proof. exact api_radix4_char. Qed.
Print Assumptions C10_radix4_computes.
(** at 128, position 127 receives element 3 *)
Example C10_case : r4_index 7 127 = 3.
Proof. reflexivity. Qed.

(** ** C11 *)
Theorem C11_raders : forall (c : R) m d, transforms d dht_spec ->
  (1 < N.of_nat (dht_len d + 1))%N -> (forall q, Nat.divide q (dht_len d + 1) -> q = 1 \/ q = dht_len d + 1) ->
  dht_len d <> 1 -> (N.of_nat (dht_len d + 1) <= 2 ^ 32)%N ->
  exists D, @raders R (RNum c) m d = Ok D /\ dht_len D = dht_len d + 1 /\ transforms D dht_spec.
Proof. exact C11_proof. Qed.
Print Assumptions C11_raders.
Example C11_case : let d := @mixed_radix R (RNum rh) (@butterfly3 R (RNum rh)) (@butterfly4 R (RNum rh)) in
  transforms d dht_spec /\ (1 < N.of_nat (dht_len d + 1))%N /\
  (forall q, Nat.divide q (dht_len d + 1) -> q = 1 \/ q = dht_len d + 1) /\
  dht_len d <> 1 /\ (N.of_nat (dht_len d + 1) <= 2 ^ 32)%N.
Proof. exact C11_case_proof. Qed.

(** ** C12: every composition tree, over any user instances that compute the DHT with modest scratch *)
Theorem C12_nesting : forall m (A : allowed R),
  (forall d, al_user A d -> transforms d dht_spec /\ modest d) ->
  (forall n, al_radix4 A n -> n <= 64) ->
  (forall p, al_rader A p -> (N.of_nat p <= 2 ^ 32)%N) ->
  forall d, @assembled R (RNum rh) m A d -> transforms d dht_spec.
Proof. exact C12_proof. Qed.
Print Assumptions C12_nesting.
(** a tree using every composite constructor *)
Example C12_case : exists d,
  @assembled R (RNum rh) Debug {| al_user := fun _ => False; al_radix4 := fun n => n <= 64; al_rader := fun p => (N.of_nat p <= 2 ^ 32)%N |} d
  /\ dht_len d = 104 * 120.
Proof. exact C12_case_proof. Qed.

(** ** C21-C25: for every instance that computes the DHT (by C12, every composition tree) *)
Theorem C21_involution : forall (c : R) d, transforms d dht_spec -> 0 < dht_len d ->
  forall xs, chunks_of (dht_len d) xs ->
  exists y, @dht_process R (RNum c) d (concat xs) = Ok y /\
            @dht_process R (RNum c) d y = Ok (map (fun v => INR (dht_len d) * v)%R (concat xs)).
Proof. exact api_twice. Qed.
Print Assumptions C21_involution.
Theorem C22_linear : forall (c : R) d, transforms d dht_spec -> 0 < dht_len d ->
  forall a b xs ys, chunks_of (dht_len d) xs -> chunks_of (dht_len d) ys -> length xs = length ys ->
  exists X Y, @dht_process R (RNum c) d (concat xs) = Ok X /\ @dht_process R (RNum c) d (concat ys) = Ok Y /\
              @dht_process R (RNum c) d (lincomb a b (concat xs) (concat ys)) = Ok (lincomb a b X Y).
Proof. exact api_linear. Qed.
Print Assumptions C22_linear.
Theorem C23_parseval : forall (c : R) d, transforms d dht_spec -> 0 < dht_len d ->
  forall xs, chunks_of (dht_len d) xs ->
  exists Xs, @dht_process R (RNum c) d (concat xs) = Ok (concat Xs) /\
    Forall2 (fun x X => length X = dht_len d /\
      rsum (dht_len d) (fun k => nth k X 0 * nth k X 0)%R =
        (INR (dht_len d) * rsum (dht_len d) (fun j => nth j x 0 * nth j x 0))%R /\
      nth 0 X 0%R = rsum (dht_len d) (fun j => nth j x 0%R)) xs Xs.
Proof. exact api_parseval. Qed.
Print Assumptions C23_parseval.
Theorem C24_reversed_tail : forall (c : R) d, transforms d dht_spec -> 0 < dht_len d ->
  forall x, length x = dht_len d ->
  exists X, @dht_process R (RNum c) d x = Ok X /\ @dht_process R (RNum c) d (rev_tail x) = Ok (rev_tail X).
Proof. exact api_rev_tail. Qed.
Print Assumptions C24_reversed_tail.
Theorem C24_reversed : forall (c : R) d, transforms d dht_spec -> 0 < dht_len d ->
  forall x, length x = dht_len d ->
  exists X Y, @dht_process R (RNum c) d x = Ok X /\ @dht_process R (RNum c) d (rev x) = Ok Y /\ length Y = dht_len d /\
    forall k, k < dht_len d ->
      nth k Y 0%R = (cos (ang (dht_len d) k) * nth (neg_idx (dht_len d) k) X 0 - sin (ang (dht_len d) k) * nth k X 0)%R.
Proof. exact api_rev. Qed.
Print Assumptions C24_reversed.
Theorem C25_convolution : forall (c : R) d, transforms d dht_spec -> 0 < dht_len d ->
  forall x y, length x = dht_len d -> length y = dht_len d ->
  exists X Y Z, @dht_process R (RNum c) d x = Ok X /\ @dht_process R (RNum c) d y = Ok Y /\
    @dht_process R (RNum c) d (conv x y) = Ok Z /\ length Z = dht_len d /\
    forall k, k < dht_len d -> let k' := neg_idx (dht_len d) k in
      nth k Z 0%R = (nth k X 0 * ((nth k Y 0 + nth k' Y 0) / 2) + nth k' X 0 * ((nth k Y 0 - nth k' Y 0) / 2))%R.
Proof. exact api_conv. Qed.
Print Assumptions C25_convolution.
(** hypotheses met by a chunk list of the tree of C12 *)
Example C21_C25_case : exists (d : Dht R) (xs : list (list R)), transforms d dht_spec /\ 0 < dht_len d /\ chunks_of (dht_len d) xs /\ length xs = 2.
Proof. exact C21_case_proof. Qed.
(** the vocabulary of C24 and C25 on a small vector *)
Example C25_vocabulary : conv [1; 2; 3]%R [4; 5; 6]%R = [31; 31; 28]%R /\ rev_tail [1; 2; 3]%R = [1; 3; 2]%R /\ neg_idx 5 2 = 3 /\ neg_idx 5 0 = 0.
Proof. exact C25_vocabulary_proof. Qed.
