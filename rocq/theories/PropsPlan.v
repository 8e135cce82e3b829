(** * Property C70: every length without the quadratic algorithm

    [naive_free t]: no DhtNaive in the composition; [smooth b n]: no prime factor of [n] above [b] (PlanSpec.v). *)
From Verif Require Import PropsPlanProof PropsExactProof.
From Coq Require Import NArith Reals.

(** ** C70: MixedRadix, RadersAlgorithm and the butterflies reach every length with prime factors up to 2^32 *)
Theorem C70_every : forall n, 0 < n -> smooth (2 ^ 32) (N.of_nat n) ->
  exists t, naive_free t /\ in_range t /\ tree_len t = n /\
    (forall T (NT : Num T) m, exists d f, build m t = Ok d /\ dht_len d = n /\ transforms d f) /\
    (forall m, exists d, @build R (RNum rh) m t = Ok d /\ transforms d dht_spec).
Proof. exact C70_every_proof. Qed.
Print Assumptions C70_every.
(** on the arithmetic of the target, if one chunk takes at most 2^60 bytes (2^28 bytes on a 32-bit target, where the
    prime factors must also be at most 2^16, C77) *)
Theorem C70_run : forall (W : width) n size, 0 < n -> smooth (rader_limit W) (N.of_nat n) -> (4 <= size)%N -> (N.of_nat n * size <= ample)%N ->
  exists t, naive_free t /\ in_range t /\ tree_len t = n /\ within ample size t /\
    (forall T (NT : Num T) m, exists d f, run_tree m size t = Ok d /\ dht_len d = n /\ transforms d f) /\
    (forall m, exists d, @run_tree W R (RNum rh) m size t = Ok d /\ transforms d dht_spec).
Proof. exact C70_run_proof. Qed.
Print Assumptions C70_run.
(** in debug builds no other length can be reached *)
Theorem C70_only : forall T (NT : Num T) t (d : Dht T), naive_free t -> lengths64 t -> build Debug t = Ok d ->
  0 < tree_len t /\ smooth (2 ^ 32) (N.of_nat (tree_len t)).
Proof. exact C70_only_proof. Qed.
Print Assumptions C70_only.
Theorem C70_exactly : forall n, (0 < N.of_nat n < 2 ^ 64)%N ->
  (smooth (2 ^ 32) (N.of_nat n) <->
   exists t, naive_free t /\ lengths64 t /\ tree_len t = n /\ forall T (NT : Num T), exists d, build Debug t = Ok d).
Proof. exact C70_exactly_proof. Qed.
Print Assumptions C70_exactly.
Example C70_case : (smooth (2 ^ 32) (4294967291 * 4294967279) /\ nprime 4294967291 /\ nprime 4294967279) /\
  ~ smooth (2 ^ 32) (2 * 4294967311).
Proof. exact C70_case_proof. Qed.
