(** * Vocabulary for property C70: compositions without the O(n^2) algorithm *)
From Verif Require Export FloatSpec NewSpec NumSpec.
From Coq Require Import NArith.

(** no DhtNaive anywhere *)
Fixpoint naive_free (t : tree) : Prop :=
  match t with
  | Naive _ => False
  | Mixed t1 t2 | Split t1 t2 => naive_free t1 /\ naive_free t2
  | Two t | Three t | Four t | Five t | Six t | Rader t => naive_free t
  | _ => True
  end.

(** no prime factor above [bound] *)
Definition smooth (bound n : N) : Prop := forall p, nprime p -> (p | n)%N -> (p <= bound)%N.

(** the largest prime that Rader's algorithm is used for *)
Definition rader_limit (W : width) : N := match W with W32 => 2 ^ 16 | W64 => 2 ^ 32 end.
