(** * Specification vocabulary: primes and generators, on unsigned integers *)
From Coq Require Import NArith.
Local Open Scope N_scope.

Definition nprime (q : N) : Prop := 1 < q /\ forall d, (d | q) -> d = 1 \/ d = q.

(** every non-zero residue mod [p] is a power of [r] *)
Definition generator (p r : N) : Prop := forall a, 0 < a < p -> exists k, r ^ k mod p = a.
(** the smallest such [r] above 1 *)
Definition least_root (p r : N) : Prop := 1 < r < p /\ generator p r /\ forall r', 1 < r' < r -> ~ generator p r'.
