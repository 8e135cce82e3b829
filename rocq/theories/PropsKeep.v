(** * Property C71: who overwrites the input of an out-of-place call

    [read_only d]: every out-of-place call that returns leaves input and scratch as they were; [no_scratch d]: every
    in-place call that returns leaves the scratch as it was (KeepSpec.v). *)
From Verif Require Import PropsKeepProof.
From Coq Require Import ZArith.

(** ** C71: DhtNaive, the butterflies, Radix4 and the MixedRadix2xn ... 6xn of a butterfly only read their input *)
Theorem C71_trees : forall T (NT : Num T) m t (d : Dht T), reads_only t = true -> build m t = Ok d -> read_only d.
Proof. exact @C71_trees_proof. Qed.
Print Assumptions C71_trees.
Theorem C71_flies : forall T (NT : Num T) m t (d : Dht T), is_fly t = true -> build m t = Ok d -> read_only d /\ no_scratch d.
Proof. exact @C71_flies_proof. Qed.
Print Assumptions C71_flies.
(** an inner instance of the user's *)
Theorem C71_kxn : forall T (NT : Num T) (d : Dht T), no_scratch d ->
  read_only (mixed_radix_2xn d) /\ read_only (mixed_radix_3xn d) /\ read_only (mixed_radix_4xn d) /\
  read_only (mixed_radix_5xn d) /\ read_only (mixed_radix_6xn d).
Proof. exact @C71_kxn_proof. Qed.
Print Assumptions C71_kxn.
(** the others overwrite it *)
Theorem C71_others : overwrites (Mixed Fly2 Fly2) [1; 2; 3; 5]%Z /\ overwrites (Two (Naive 2)) [1; 2; 3; 5]%Z /\
  overwrites (Split Fly1 Fly2) [1; 2; 3; 5]%Z /\ overwrites (Rader Fly2) [1; 2; 5]%Z /\ overwrites (Two (Two Fly2)) [1; 2; 3; 5; 8; 13; 21; 34]%Z.
Proof. exact C71_others_proof. Qed.
Print Assumptions C71_others.
Example C71_case : reads_only (Five Fly16) = true /\ reads_only (Rad4 64) = true /\
  exists o, dht_process_oop (@mixed_radix_2xn Z Num_ints (@butterfly2 Z Num_ints)) [1; 2; 3; 5]%Z [0; 0; 0; 0]%Z [] = Ok ([1; 2; 3; 5]%Z, o, []).
Proof. split; [reflexivity|]. split; [reflexivity|]. eexists. vm_compute. reflexivity. Qed.
