(** * Property C72: how many operations the outputs take, and how many in a row

    [program m t es]: the outputs of instance [t] are the values of the expressions [es], over every number type (C65).
    [computable x c es]: at most [c] different additions, subtractions, multiplications and negations lead from the inputs
    [x] and constants to [es]; [deep x n e]: at most [n] of them lie between the inputs and [e]. [ops], [path]: the counts,
    by recursion over the composition (CostSpec.v). *)
From Verif Require Import CostSpec PropsCostProof Straight PropsParamProof.
From Coq Require Import Reals.

(** ** C72: every composition *)
Theorem C72_trees : forall m t T (N : Num T) d es, in_range t -> @build T N m t = Ok d -> program m t es ->
  computable (inputs (tree_len t)) (ops t) es /\ Forall (deep (inputs (tree_len t)) (path t)) es.
Proof. exact C72_trees_proof. Qed.
Print Assumptions C72_trees.
(** the butterflies and Radix4 take exactly that many *)
Theorem C72_leaves : forall m t T (N : Num T) d es, in_range t -> leaf t -> @build T N m t = Ok d -> program m t es ->
  (forall c, computable (inputs (tree_len t)) c es <-> ops t <= c) /\
  (forall n, Forall (deep (inputs (tree_len t)) n) es <-> path t <= n).
Proof. exact C72_leaves_proof. Qed.
Print Assumptions C72_leaves.
(** without DhtNaive: n log n, doubled by each RadersAlgorithm around another one *)
Theorem C72_fast : forall m t T (N : Num T) d, in_range t -> naive_free t -> @build T N m t = Ok d -> 0 < tree_len t ->
  (INR (ops t) <= 5 * 2 ^ nested t * INR (tree_len t) * log2 (tree_len t))%R /\
  (INR (path t) <= 6 * 2 ^ nested t * log2 (tree_len t))%R.
Proof. exact C72_fast_proof. Qed.
Print Assumptions C72_fast.
(** split radix down to Butterfly8 and Butterfly16: at most 2 n log n - 3 n operations, 2 log n - 2 in a row *)
Theorem C72_splits : forall k, let '(q, h) := splits k in
  (tree_len q = 2 ^ (k + 3) /\ ops q + 3 * tree_len q <= 2 * tree_len q * (k + 3) /\ path q + 2 <= 2 * (k + 3)) /\
  (tree_len h = 2 ^ (k + 4) /\ ops h + 3 * tree_len h <= 2 * tree_len h * (k + 4) /\ path h + 2 <= 2 * (k + 4)).
Proof. exact C72_splits_proof. Qed.
Print Assumptions C72_splits.
(** MixedRadix4xn down to Butterfly16 *)
Theorem C72_fours : forall k, tree_len (fours k) = 16 * 4 ^ k /\
  12 * ops (fours k) + 32 = tree_len (fours k) * (51 * k + 59) /\ path (fours k) = 4 * k + 6.
Proof. exact C72_fours_proof. Qed.
Print Assumptions C72_fours.
Example C72_case : let t := Split Fly8 Fly16 in exists es, program Release t es /\ naive_free t /\ ops t = 220 /\ ops (Naive 32) = 2048 /\
  computable (inputs 32) 220 es.
Proof.
  cbv zeta. set (t := Split Fly8 Fly16). destruct (@build expr Num_expr Release t) as [d| | |] eqn:B; try (exfalso; vm_compute in B; discriminate).
  assert (I : in_range t) by (split; exact Logic.I).
  destruct (program_exists_proof Release t expr Num_expr d I B) as [es P]. exists es.
  split; [exact P|]. split; [split; exact Logic.I|]. split; [reflexivity|]. split; [reflexivity|].
  apply (C72_trees Release t expr Num_expr d es I B P).
Qed.
