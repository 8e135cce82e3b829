(** * Vocabulary for property C71: compositions whose out-of-place calls only read the input *)
From Verif Require Export FloatSpec.
From Coq Require Import ZArith.

(** [process_outofplace_with_scratch] hands back the input and the scratch it was given *)
Definition read_only {T} (d : Dht T) : Prop := forall input output scratch input' output' scratch',
  dht_process_oop d input output scratch = Ok (input', output', scratch') -> input' = input /\ scratch' = scratch.

Definition is_fly (t : tree) : bool :=
  match t with Fly1 | Fly2 | Fly3 | Fly4 | Fly5 | Fly6 | Fly8 | Fly9 | Fly16 => true | _ => false end.
(** DhtNaive, the butterflies, Radix4, and MixedRadix2xn ... 6xn of a butterfly *)
Definition reads_only (t : tree) : bool :=
  match t with
  | Naive _ | Rad4 _ => true
  | Two t | Three t | Four t | Five t | Six t => is_fly t
  | t => is_fly t
  end.
(** [process_with_scratch] hands back the scratch it was given *)
Definition no_scratch {T} (d : Dht T) : Prop := forall buffer scratch buffer' scratch',
  dht_process_with_scratch d buffer scratch = Ok (buffer', scratch') -> scratch' = scratch.

(** integers for counterexamples *)
#[local] Instance Num_ints : Num Z := {|
  nzero := 0%Z; nadd := Z.add; nsub := Z.sub; nmul := Z.mul; nopp := Z.opp;
  ncos := fun _ _ _ => 1%Z; nsin := fun _ _ _ => 1%Z; nhalf := 1%Z; nroot_half := 1%Z; nrecip := fun _ => 1%Z |}.
(** an out-of-place call on [x] leaves something else in the input *)
Definition overwrites (t : tree) (x : list Z) : Prop :=
  match @build Z Num_ints Debug t with
  | Ok d => match dht_process_oop d x x [] with Ok (input', _, _) => input' <> x | _ => False end
  | _ => False
  end.
