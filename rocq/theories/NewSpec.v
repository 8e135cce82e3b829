(** * Specification vocabulary: how large a composition is *)
From Verif Require Export FloatSpec New NumSpec.
From Coq Require Import NArith.

(** a chunk of every instance in the composition takes at most [bytes] bytes, [size] for each element *)
Fixpoint within (bytes size : N) (t : tree) : Prop :=
  (N.of_nat (tree_len t) * size <= bytes)%N /\
  match t with
  | Mixed t1 t2 | Split t1 t2 => within bytes size t1 /\ within bytes size t2
  | Two t | Three t | Four t | Five t | Six t | Rader t => within bytes size t
  | _ => True
  end.
(** isize::MAX, the largest size of a slice in bytes, on each target *)
Definition isize_max {W : width} : N := match W with W32 => 2147483647 | W64 => 9223372036854775807 end.
(** a size for which no allocation is refused: 2^28 or 2^60 *)
Definition ample {W : width} : N := match W with W32 => 2 ^ 28 | W64 => 2 ^ 60 end.

(** the indices of Rader's algorithm of length [p] on a 32-bit target: the products of an index with the smallest
    primitive root and with its inverse fit into 32 bits.  All lengths up to 2^16 do, none from 2^22 on (C77) *)
Definition rader_fits {W : width} (p : N) : Prop := W = W32 ->
  forall r s, least_root p r -> (s < p)%N -> ((r * s) mod p = 1)%N -> ((p - 1) * r < 2 ^ 32)%N /\ ((p - 1) * s < 2 ^ 32)%N.
Fixpoint raders_fit {W : width} (t : tree) : Prop :=
  match t with
  | Mixed t1 t2 | Split t1 t2 => raders_fit t1 /\ raders_fit t2
  | Two t | Three t | Four t | Five t | Six t => raders_fit t
  | Rader t' => raders_fit t' /\ rader_fits (N.of_nat (tree_len t))
  | _ => True
  end.

(** every length in the composition fits into 64 bits *)
Fixpoint lengths64 (t : tree) : Prop :=
  (N.of_nat (tree_len t) < 2 ^ 64)%N /\
  match t with
  | Mixed t1 t2 | Split t1 t2 => lengths64 t1 /\ lengths64 t2
  | Two t | Three t | Four t | Five t | Six t | Rader t => lengths64 t
  | _ => True
  end.
(** Radix4 only up to 64, where it computes the transform (C10) *)
Fixpoint rad4_small (t : tree) : Prop :=
  match t with
  | Mixed t1 t2 | Split t1 t2 => rad4_small t1 /\ rad4_small t2
  | Two t | Three t | Four t | Five t | Six t | Rader t => rad4_small t
  | Rad4 len => (len <= 64)%nat
  | _ => True
  end.
