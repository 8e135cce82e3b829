(** * Property C77: 32-bit targets

    [run_tree] and [raders_run] (Proc.v) take the width of [usize].  [raders_fit] and
    [rader_fits] (NewSpec.v): on a 32-bit target the products of Rader's indices with the root and its inverse fit.  [never_returns] (WordSpec.v): no call of either method returns.  [unit_vec n a] (WordSpec.v): 1 at index [a], 0 elsewhere. *)
From Verif Require Import PropsWordProof WordTree PropsExactProof.
From Coq Require Import NArith Reals.

(** ** C77 *)
(** up to there a 32-bit target builds the same instances as a 64-bit target *)
Theorem C77_targets : forall T (NT : Num T) m size t, (4 <= size)%N -> (size <= 2 ^ 28)%N -> within (2 ^ 28) size t -> @raders_fit W32 t ->
  @run_tree W32 T NT m size t = @run_tree W64 T NT m size t.
Proof. exact C77_targets_proof. Qed.
Print Assumptions C77_targets.
(** which lengths these are *)
Theorem C77_range : forall p, nprime p -> ((p <= 2 ^ 16)%N -> @rader_fits W32 p) /\ ((2 ^ 22 <= p <= 2 ^ 32)%N -> ~ @rader_fits W32 p).
Proof. exact C77_range_proof. Qed.
Print Assumptions C77_range.
Theorem C77_decide : forall m p r s, nprime p -> (3 <= p <= 2 ^ 32)%N -> primitive_root m p = Ok (Some r) -> (s < p)%N -> ((r * s) mod p = 1)%N ->
  @rader_fits W32 p <-> ((p - 1) * r < 2 ^ 32)%N /\ ((p - 1) * s < 2 ^ 32)%N.
Proof. exact C77_decide_proof. Qed.
Print Assumptions C77_decide.
Theorem C77_first : (forall p, nprime p -> (p < 67679)%N -> @rader_fits W32 p) /\ nprime 67679 /\ ~ @rader_fits W32 67679.
Proof. exact C77_first_proof. Qed.
Print Assumptions C77_first.
(** the condition is necessary: on a 32-bit target a debug build gets a working instance exactly for these lengths *)
Theorem C77_exactly : forall T (NT : Num T) size (d : Dht T) f, let p := (N.of_nat (dht_len d) + 1)%N in
  nprime p -> (3 <= p)%N -> transforms d f -> safe_rust d ->
  (4 <= size)%N -> (p * size <= 2 ^ 28)%N -> (N.of_nat (dht_inplace_scratch d) * size <= 2 ^ 28)%N ->
  @rader_fits W32 p <-> exists D g, @raders_run W32 T NT Debug size d = Ok D /\ transforms D g.
Proof. exact C77_exactly_proof. Qed.
Print Assumptions C77_exactly.
(** over exact reals the same holds of release builds: an index that wraps always spoils the transform *)
Theorem C77_every : forall m size (d : Dht R), let p := (N.of_nat (dht_len d) + 1)%N in
  nprime p -> (3 <= p)%N -> transforms d dht_spec -> safe_rust d ->
  (4 <= size)%N -> (p * size <= 2 ^ 28)%N -> (N.of_nat (dht_inplace_scratch d) * size <= 2 ^ 28)%N ->
  @rader_fits W32 p <-> exists D, @raders_run W32 R (RNum rh) m size d = Ok D /\ transforms D dht_spec.
Proof. exact C77_every_proof. Qed.
Print Assumptions C77_every.
Example C77_every_case : (exists D, @raders_run W32 R (RNum rh) Release 8 (@dht_naive R (RNum rh) 52) = Ok D /\ transforms D dht_spec) /\
  forall n, N.of_nat n = 67678%N -> ~ exists D, @raders_run W32 R (RNum rh) Release 8 (@dht_naive R (RNum rh) n) = Ok D /\ transforms D dht_spec.
Proof. exact C77_every_case_proof. Qed.
(** where it does not fit, a release build returns an instance that fails on an input with a single 1 *)
Theorem C77_faulty : forall size (d : Dht R), let p := dht_len d + 1 in
  nprime (N.of_nat p) -> 3 <= p -> transforms d dht_spec ->
  (4 <= size)%N -> (N.of_nat p * size <= 2 ^ 28)%N -> (N.of_nat (dht_inplace_scratch d) * size <= 2 ^ 28)%N -> ~ @rader_fits W32 (N.of_nat p) ->
  exists D a, @raders_run W32 R (RNum rh) Release size d = Ok D /\ dht_len D = p /\ a < p /\
    forall i s, dht_process_oop D (unit_vec p a) (unit_vec p a) (repeat 0%R (dht_oop_scratch D)) <> Ok (i, dht_spec (unit_vec p a), s).
Proof. exact C77_faulty_proof. Qed.
Print Assumptions C77_faulty.
Example C77_faulty_case : forall n, N.of_nat n = 67678%N -> let d := @dht_naive R (RNum rh) n in let p := dht_len d + 1 in
  nprime (N.of_nat p) /\ 3 <= p /\ transforms d dht_spec /\ (N.of_nat p * 8 <= 2 ^ 28)%N /\ (N.of_nat (dht_inplace_scratch d) * 8 <= 2 ^ 28)%N /\ ~ @rader_fits W32 (N.of_nat p).
Proof. exact C77_faulty_case_proof. Qed.
(** elsewhere: [(twiddle_input * primitive_root_inverse) % reduced_len] overflows, so RadersAlgorithm::new panics in debug builds *)
Theorem C77_new : forall T (NT : Num T) size (d : Dht T) r s, let p := dht_len d + 1 in nprime (N.of_nat p) -> (3 <= N.of_nat p < 2 ^ 31)%N ->
  primitive_root Debug (N.of_nat p) = Ok (Some (N.of_nat r)) -> s < p -> (r * s) mod p = 1 -> (2 ^ 32 <= N.of_nat (p - 1) * N.of_nat s)%N ->
  @raders_run W32 T NT Debug size d = Panic.
Proof. exact C77_new_proof. Qed.
Print Assumptions C77_new.
(** an instance that a debug build returns has fitting indices, or every call on it panics *)
Theorem C77_debug : forall T (NT : Num T) size (d D : Dht T), let p := (N.of_nat (dht_len d) + 1)%N in (p < 2 ^ 31)%N ->
  @raders_run W32 T NT Debug size d = Ok D -> @rader_fits W32 p \/ never_returns D.
Proof. exact C77_debug_proof. Qed.
Print Assumptions C77_debug.
(** so for whole compositions: a Rader node anywhere whose indices do not fit makes every call panic, if the constructors did not *)
Theorem C77_tree : forall T (NT : Num T) size t D, (4 <= size)%N -> @run_tree W32 T NT Debug size t = Ok D -> 0 < dht_len D ->
  @raders_fit W32 t \/ never_returns D.
Proof. exact C77_tree_proof. Qed.
Print Assumptions C77_tree.
(** an instance that returns from any call at all is the one a 64-bit target builds *)
Theorem C77_same : forall T (NT : Num T) size t D, (4 <= size <= 2 ^ 28)%N -> within (2 ^ 28) size t -> @run_tree W32 T NT Debug size t = Ok D -> 0 < dht_len D ->
  @run_tree W64 T NT Debug size t = Ok D \/ never_returns D.
Proof. exact C77_same_proof. Qed.
Print Assumptions C77_same.
Example C77_same_case : let t := Rader (Two (Naive 26)) in within (2 ^ 28) 8 t /\
  exists D, @run_tree W32 R (RNum rh) Debug 8 t = Ok D /\ dht_len D = 53 /\ ~ never_returns D.
Proof. exact C77_same_case_proof. Qed.
(** from 2^22 on one of the two products always overflows *)
Theorem C77_large : forall T (NT : Num T) size (d D : Dht T), (2 ^ 22 <= N.of_nat (dht_len d) + 1 < 2 ^ 31)%N ->
  @raders_run W32 T NT Debug size d = Ok D -> never_returns D.
Proof. exact C77_large_proof. Qed.
Print Assumptions C77_large.
(** a release build returns an instance; at this length its 27th output index is 0, and every call panics *)
Theorem C77_release : nprime 96847 /\ forall T (NT : Num T) size (d : Dht T) f, (N.of_nat (dht_len d) + 1 = 96847)%N -> transforms d f -> safe_rust d ->
  (4 <= size <= 2048)%N -> (N.of_nat (dht_inplace_scratch d) * size <= 2 ^ 28)%N ->
  exists D, @raders_run W32 T NT Release size d = Ok D /\ N.of_nat (dht_len D) = 96847%N /\ never_returns D.
Proof. exact C77_release_proof. Qed.
Print Assumptions C77_release.
(** the same composition on both targets *)
Theorem C77_differ : forall n, N.of_nat n = 96846%N -> let t := Rader (Naive n) in
  (exists D, @run_tree W32 R (RNum rh) Release 4 t = Ok D /\ never_returns D) /\
  (exists D, @run_tree W64 R (RNum rh) Release 4 t = Ok D /\ transforms D dht_spec).
Proof. exact C77_differ_proof. Qed.
Print Assumptions C77_differ.
(** here a release build for a 32-bit target returns a wrong result; nothing panics *)
Theorem C77_silent : forall n, N.of_nat n = 67678%N -> let t := Rader (Naive n) in
  (exists D, @run_tree W32 R (RNum rh) Release 4 t = Ok D /\ dht_len D = n + 1 /\ exists x, length x = n + 1 /\
    (forall scratch, length scratch = dht_inplace_scratch D -> exists y s, dht_process_with_scratch D x scratch = Ok (y, s) /\ y <> dht_spec x) /\
    (forall output, length output = n + 1 -> exists i y s, dht_process_oop D x output [] = Ok (i, y, s) /\ y <> dht_spec x)) /\
  (exists D, @run_tree W64 R (RNum rh) Release 4 t = Ok D /\ transforms D dht_spec).
Proof. exact C77_silent_proof. Qed.
Print Assumptions C77_silent.
Example C77_case : (nprime 67679 /\ primitive_root Debug 67679 = Ok (Some 19%N) /\ (19 * 64117 mod 67679 = 1)%N /\ (2 ^ 32 <= 67678 * 64117)%N) /\
  (nprime 65537 /\ @rader_fits W32 65537 /\ ~ @rader_fits W32 67679) /\
  (nprime 4194319 /\ (2 ^ 22 <= 4194319 < 2 ^ 31)%N) /\
  (within (2 ^ 28) 8 (Rader (Two (Naive 26))) /\ @raders_fit W32 (Rader (Two (Naive 26))) /\
   exists d, @build R (RNum rh) Debug (Rader (Two (Naive 26))) = Ok d).
Proof. exact C77_case_proof. Qed.
