(** * Specification vocabulary: integers through two transforms *)
From Verif Require Export RmsSpec.
From Flocq Require Import Core.
Local Open Scope R_scope.

(** the nearest integer *)
Definition nearest (v : R) : Z := Zfloor (v + / 2).

(** built from [t], [d] has length [n]; integers of magnitude at most [B] come back from two transforms, division by
    the length and rounding *)
Definition survives {T} (F : fmt T) (N : Num T) (m : profile) (t : tree) (n : nat) (B : R) : Prop :=
  exists d f, @build T N m t = Ok d /\ dht_len d = n /\ transforms d f /\
    forall x zs, length x = n -> Forall2 (fun v z => ffin F v /\ fval F v = IZR z /\ Rabs (IZR z) <= B) x zs ->
      Forall (ffin F) (f (f x)) /\ map (fun v => nearest (fval F v / INR n)) (f (f x)) = zs.
