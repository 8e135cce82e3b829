(** * Specification vocabulary: instances that are of no use *)
From Verif Require Export Trait Api.
From Coq Require Import Reals.

(** no call of either method returns *)
Definition never_returns {T : Type} (d : Dht T) : Prop :=
  (forall buffer scratch y, dht_process_with_scratch d buffer scratch <> Ok y) /\
  (forall input output scratch y, dht_process_oop d input output scratch <> Ok y).

(** whatever a call returns is right: as [transforms] (Api.v), but the calls may panic *)
Definition never_wrong {T : Type} (d : Dht T) (f : list T -> list T) : Prop :=
  (forall xs scratch y s, 0 < dht_len d -> chunks_of (dht_len d) xs -> dht_inplace_scratch d <= length scratch ->
     dht_process_with_scratch d (concat xs) scratch = Ok (y, s) -> y = concat (map f xs)) /\
  (forall xs output scratch i y s, 0 < dht_len d -> chunks_of (dht_len d) xs -> length output = length (concat xs) ->
     dht_oop_scratch d <= length scratch ->
     dht_process_oop d (concat xs) output scratch = Ok (i, y, s) -> y = concat (map f xs)).

(** the vector with a 1 at [a] and 0 elsewhere *)
Definition unit_vec (n a : nat) : list R := map (fun i => if i =? a then 1%R else 0%R) (seq 0 n).
