(** * Property C38: specialised algorithms give the same bits as the general ones

    For every number type and every inner instance, without any law of arithmetic: every output is the same
    expression of the inputs.  [same_transform] (PropsSameProof.v): same length and one function [f] such that
    both instances replace every chunk [x] by [f x]. *)
From Verif Require Import PropsSameProof.

Theorem C38_3xn : forall T (NT : Num T) (d : Dht T), (exists f, transforms d f) ->
  dht_inplace_scratch d <= 3 * dht_len d -> dht_oop_scratch d = 0 ->
  same_transform (mixed_radix_3xn d) (mixed_radix butterfly3 d).
Proof. exact @C38_3_proof. Qed.
Print Assumptions C38_3xn.
Theorem C38_5xn : forall T (NT : Num T) (d : Dht T), (exists f, transforms d f) ->
  dht_inplace_scratch d <= 5 * dht_len d -> dht_oop_scratch d = 0 ->
  same_transform (mixed_radix_5xn d) (mixed_radix butterfly5 d).
Proof. exact @C38_5_proof. Qed.
Print Assumptions C38_5xn.
Theorem C38_6xn : forall T (NT : Num T) (d : Dht T), (exists f, transforms d f) ->
  dht_inplace_scratch d <= 6 * dht_len d -> dht_oop_scratch d = 0 ->
  same_transform (mixed_radix_6xn d) (mixed_radix butterfly6 d).
Proof. exact @C38_6_proof. Qed.
Print Assumptions C38_6xn.
Example C38_case : forall T (NT : Num T), let d := dht_naive 7 in
  (exists f, transforms d f) /\ dht_inplace_scratch d <= 3 * dht_len d /\ dht_oop_scratch d = 0.
Proof. exact @C38_case_proof. Qed.
(** Radix4 is the butterfly itself up to 16 and MixedRadix4xn over a butterfly at 32 and 64 *)
Theorem C38_radix4_base : forall T (NT : Num T),
  (exists D, radix4 1 = Ok D /\ same_transform D butterfly1) /\
  (exists D, radix4 2 = Ok D /\ same_transform D butterfly2) /\
  (exists D, radix4 4 = Ok D /\ same_transform D butterfly4) /\
  (exists D, radix4 8 = Ok D /\ same_transform D butterfly8) /\
  (exists D, radix4 16 = Ok D /\ same_transform D butterfly16).
Proof. exact @C38_radix4_base_proof. Qed.
Print Assumptions C38_radix4_base.
Theorem C38_radix4_layer : forall T (NT : Num T),
  (exists D, radix4 32 = Ok D /\ same_transform D (mixed_radix_4xn butterfly8)) /\
  (exists D, radix4 64 = Ok D /\ same_transform D (mixed_radix_4xn butterfly16)).
Proof. exact @C38_radix4_layer_proof. Qed.
Print Assumptions C38_radix4_layer.
