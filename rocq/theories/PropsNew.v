(** * Properties C51 and C52: the constructors under machine arithmetic

    [construct m size t] (New.v) runs the constructors of a composition with every [usize] operation checked
    (Debug) or wrapping (Release) and every [Vec] refused above isize::MAX bytes; [size] is the size of an element
    in bytes; usize has 32 or 64 bits ([W : width]), and [span] is 2^32 or 2^64. [build m t] (FloatSpec.v) runs them on unbounded numbers. *)
From Verif Require Import PropsNewProof.
From Coq Require Import NArith.

Local Open Scope N_scope.

(** ** C51: a constructor that returns reports the exact length, in both profiles *)
Theorem C51_constructors : forall (W : width) T (NT : Num T) m size, 2 <= size ->
  (forall n (D : Dht T), naive_new size n = Ok D -> dht_len D = n) /\
  (forall dw dh (D : Dht T), N.of_nat (dht_len dw) < span -> N.of_nat (dht_len dh) < span ->
     mixed_new m size dw dh = Ok D -> dht_len D = (dht_len dw * dht_len dh)%nat) /\
  (forall d (D : Dht T), radix2_new m size d = Ok D -> dht_len D = (2 * dht_len d)%nat) /\
  (forall d (D : Dht T), radix3_new m size d = Ok D -> dht_len D = (3 * dht_len d)%nat) /\
  (forall d (D : Dht T), radix4xn_new m size d = Ok D -> dht_len D = (4 * dht_len d)%nat) /\
  (forall d (D : Dht T), radix5_new m size d = Ok D -> dht_len D = (5 * dht_len d)%nat) /\
  (forall d (D : Dht T), radix6_new m size d = Ok D -> dht_len D = (6 * dht_len d)%nat) /\
  (forall n (D : Dht T), radix4_new m size n = Ok D -> dht_len D = n) /\
  (forall d (D : Dht T), N.of_nat (dht_len d) < span -> raders_new m size d = Ok D -> dht_len D = (dht_len d + 1)%nat).
Proof. exact C51_constructors_proof. Qed.
Print Assumptions C51_constructors.
Theorem C51_split_debug : forall (W : width) T (NT : Num T) size dq dh (D : Dht T), 2 <= size -> split_new Debug size dq dh = Ok D ->
  dht_len dh = (2 * dht_len dq)%nat /\ dht_len D = (4 * dht_len dq)%nat.
Proof. exact C51_split_debug_proof. Qed.
Print Assumptions C51_split_debug.
(** SplitRadix in Release: instances of length 2^62 + 1 and 2^63 + 2 (2^30 + 1 and 2^31 + 2) give one of length 4 *)
Theorem C51_split_refuted : forall (W : width) T (NT : Num T), exists dq dh D : Dht T,
  N.of_nat (dht_len dq) < span /\ N.of_nat (dht_len dh) < span /\ safe_rust dq /\ safe_rust dh /\
  split_new Release 8 dq dh = Ok D /\ dht_len D <> (4 * dht_len dq)%nat.
Proof. exact C51_split_refuted_proof. Qed.
Print Assumptions C51_split_refuted.
(** without instances of the user's, SplitRadix in Release included *)
Theorem C51_trees : forall (W : width) T (NT : Num T) m size t (d : Dht T), 4 <= size -> construct m size t = Ok d ->
  dht_len d = tree_len t /\ N.of_nat (tree_len t) < span / 2.
Proof. exact C51_trees_proof. Qed.
Print Assumptions C51_trees.
Example C51_case : forall (W : width) T (NT : Num T) m, exists d : Dht T,
  construct m 8 (Six (Mixed (Naive 3) (Split Fly1 Fly2))) = Ok d /\ dht_len d = 72%nat.
Proof. exact C51_case_proof. Qed.

(** ** C52: machine arithmetic builds what unbounded arithmetic builds *)
(** whenever one chunk of each part fits into memory: the same instance, or a refused allocation *)
Theorem C52_agree : forall (W : width) T (NT : Num T) m size t, 4 <= size -> within isize_max size t -> raders_fit t ->
  @construct W T NT m size t = build m t \/ @construct W T NT m size t = Panic.
Proof. exact C52_agree_proof. Qed.
Print Assumptions C52_agree.
(** up to 2^60 bytes (2^28 on 32-bit targets) no allocation is refused for its size *)
Theorem C52_complete : forall (W : width) T (NT : Num T) m size t, 4 <= size -> size <= ample -> within ample size t -> raders_fit t ->
  @construct W T NT m size t = build m t.
Proof. exact C52_complete_proof. Qed.
Print Assumptions C52_complete.
Example C52_case : forall W : width, within ample 8 (Five (Rader (Mixed Fly2 (Three Fly1)))) /\ raders_fit (Five (Rader (Mixed Fly2 (Three Fly1)))).
Proof. exact C52_case_proof. Qed.
(** on 64-bit targets Rader's indices need no condition *)
Theorem C52_fit64 : forall t, @raders_fit W64 t.
Proof. exact raders_fit_64. Qed.
Print Assumptions C52_fit64.
(** the refusal in [C52_agree] occurs: MixedRadix of a butterfly and a naive instance of length 2^60 - 1 (2^28 - 1) *)
Example C52_refuses : forall (W : width) T (NT : Num T) m, exists n, within isize_max 8 (Mixed Fly1 (Naive n)) /\
  @construct W T NT m 8 (Mixed Fly1 (Naive n)) = Panic.
Proof. exact C52_refuses_proof. Qed.
