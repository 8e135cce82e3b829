(** * Properties C62-C63: inner instances that only oblige; the benchmarks *)
From Verif Require Import PropsBenchProof NumSpec RootProofs.
From Coq Require Import Lia NArith.

(** ** C62: every algorithm over inner instances that return from correctly sized calls and ask for modest scratch, whatever they compute *)
Theorem C62_assembled : forall (T : Type) (NT : Num T) m (P : Dht T -> Prop),
  (forall d, P d -> obliging d /\ (0 < dht_len d -> modest d)) ->
  forall d, assembled m (over P) d -> obliging d /\ (0 < dht_len d -> modest d).
Proof. exact C62_proof. Qed.
Print Assumptions C62_assembled.
Theorem C62_raders : forall (T : Type) (NT : Num T) m (d : Dht T), obliging d ->
  nprime (N.of_nat (dht_len d + 1)) -> 2 <= dht_len d -> (N.of_nat (dht_len d + 1) <= 2 ^ 32)%N ->
  exists D, raders m d = Ok D /\ obliging D.
Proof. exact @raders_obliging. Qed.
Print Assumptions C62_raders.
(** [noop 7] does not even compute a function *)
Example C62_case : forall (T : Type) (NT : Num T) m,
  let P := fun d : Dht T => exists n, d = noop n in
  (forall d, P d -> obliging d /\ (0 < dht_len d -> modest d)) /\
  assembled m (over P) (mixed_radix_6xn (mixed_radix (noop 7) butterfly9)) /\
  forall a b : T, a <> b -> ~ exists f, transforms (noop 7 : Dht T) f.
Proof.
  intros T NT m P. split; [|split].
  - intros d [n ->]. split; [apply noop_obliging|intros _; apply noop_modest].
  - apply as_6xn, as_mixed; [apply as_user; now exists 7|apply as_bf9].
  - intros a b N. apply (noop_no_transform T NT a b); auto. lia.
Qed.
Example C62_raders_case : forall (T : Type) (NT : Num T), let d := noop 30 : Dht T in
  obliging d /\ nprime (N.of_nat (dht_len d + 1)) /\ 2 <= dht_len d /\ (N.of_nat (dht_len d + 1) <= 2 ^ 32)%N.
Proof. intros. split; [apply noop_obliging|]. split; [apply miller_rabin_ok; reflexivity|]. simpl. lia. Qed.

(** ** C63: the benchmarks; [count] is the number of times the harness calls the closure *)
Theorem C63_noop : forall (T : Type) (NT : Num T) count width height,
  bench_mixed_radix_noop (T := T) count width height = Ok tt /\ bench_4xn_noop (T := T) count height = Ok tt.
Proof. intros T NT count w h. exact (conj (mixed_noop count w h) (four_noop count h)). Qed.
Print Assumptions C63_noop.
Theorem C63_raders_noop : forall (T : Type) (NT : Num T) m count p,
  nprime (N.of_nat p) -> p <> 2 -> (N.of_nat p <= 2 ^ 32)%N -> bench_raders_noop (T := T) m count p = Ok tt.
Proof. exact @raders_noop. Qed.
Print Assumptions C63_raders_noop.
Theorem C63_raders_power2 : forall (T : Type) (NT : Num T) m count k, k <> 0 ->
  nprime (N.of_nat (2 ^ k + 1)) -> (N.of_nat (2 ^ k + 1) <= 2 ^ 32)%N -> bench_raders_power2 (T := T) m count (2 ^ k + 1) = Ok tt.
Proof. exact @raders_power2. Qed.
Print Assumptions C63_raders_power2.
(** the lengths in the file *)
Example C63_raders_cases : Forall (fun p => nprime p /\ (p <= 2 ^ 32)%N) [31; 97; 257; 1031; 4099; 16411; 65537]%N /\
  Forall (fun k => nprime (2 ^ k + 1)) [4; 8; 16]%N.
Proof.
  split; repeat match goal with
    | |- Forall _ (_ :: _) => apply Forall_cons
    | |- Forall _ [] => apply Forall_nil
    | |- nprime _ /\ _ => split; [|discriminate]
    | |- nprime _ => apply miller_rabin_ok; vm_compute; reflexivity end.
Qed.
Theorem C63_radix4 : forall (T : Type) (NT : Num T) count k,
  bench_direct_radix4 (T := T) count (2 ^ k) = Ok tt /\ bench_4xn_radix4 (T := T) count (2 ^ S k) = Ok tt.
Proof. intros T NT count k. exact (conj (direct_radix4 count k) (bench4 count k)). Qed.
Print Assumptions C63_radix4.
(** the benchmarks that assert the length return for exactly these lengths *)
Theorem C63_lengths : forall (T : Type) (NT : Num T) count len,
  (bench_3xn_radix3 (T := T) count len = Ok tt <-> exists k, len = 3 ^ S k) /\
  (bench_5xn_radix5 (T := T) count len = Ok tt <-> exists k, len = 5 ^ S k) /\
  (bench_6xn_radix6 (T := T) count len = Ok tt <-> exists k, len = 6 ^ S k) /\
  (bench_splitradix (T := T) count len = Ok tt <-> exists k, 4 <= k /\ len = 2 ^ k).
Proof. intros T NT count len. exact (conj (bench3 count len) (conj (bench5 count len) (conj (bench6 count len) (bench_split count len)))). Qed.
Print Assumptions C63_lengths.
Theorem C63_butterflies : forall (T : Type) (NT : Num T) count, bench_butterfly3 (T := T) count = Ok tt /\ bench_butterfly6 (T := T) count = Ok tt.
Proof. intros T NT count. exact (conj (fly3 count) (fly6 count)). Qed.
Print Assumptions C63_butterflies.
(** what the recursive constructors make computes the DHT of the length asked for *)
Theorem C63_made : forall k,
  (exists d, @make_4xn_radix4 R (RNum rh) (2 ^ S k) = Ok d /\ dht_len d = 2 ^ S k /\ transforms d dht_spec) /\
  (exists d, @make_3xn_radix3 R (RNum rh) (3 ^ S k) = Ok d /\ dht_len d = 3 ^ S k /\ transforms d dht_spec) /\
  (exists d, @make_5xn_radix5 R (RNum rh) (5 ^ S k) = Ok d /\ dht_len d = 5 ^ S k /\ transforms d dht_spec) /\
  (exists d, @make_6xn_radix6 R (RNum rh) (6 ^ S k) = Ok d /\ dht_len d = 6 ^ S k /\ transforms d dht_spec) /\
  (4 <= k -> exists d, @make_splitradix R (RNum rh) (2 ^ k) = Ok d /\ dht_len d = 2 ^ k /\ transforms d dht_spec).
Proof. intros k. exact (conj (C63_4xn_proof k) (conj (C63_3xn_proof k) (conj (C63_5xn_proof k) (conj (C63_6xn_proof k) (C63_split_proof k))))). Qed.
Print Assumptions C63_made.
(** not so for make_splitradix below 16 and, silently, of bench_4xn_radix4 at lengths that are not powers of two *)
Theorem C63_short : forall (T : Type) (NT : Num T) k, k < 4 ->
  (exists d : Dht T, make_splitradix (2 ^ k) = Ok d /\ dht_len d = 16) /\ forall count, bench_splitradix count (2 ^ k) = Panic.
Proof. exact C63_short_proof. Qed.
Print Assumptions C63_short.
Theorem C63_silent : forall (T : Type) (NT : Num T),
  exists d : Dht T, make_4xn_radix4 35 = Ok d /\ dht_len d = 32 /\ forall count, bench_4xn_radix4 count 35 = Ok tt.
Proof. exact C63_silent_proof. Qed.
Print Assumptions C63_silent.
