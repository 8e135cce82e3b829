(** * Property C73: where the fault of Radix4 lies

    C10 shows that Radix4 is wrong from length 128 on.  Here: it computes the DHT of a rearrangement of its input,
    the same for every input; the rearrangement can be undone by the caller; and the fault is in one expression,
    the output offset of the quarters in prepare_radix4_reversed (Radix4Fix.v). *)
From Verif Require Import Api Spec RealDHT Radix4Fix Radix4Real Radix4FixProof.
From Coq Require Import Reals List Permutation.
Import ListNotations.
Local Open Scope R_scope.

(** with the offset changed it computes the DHT at every power of two *)
Theorem C73_repair : forall (c : R) k, exists d,
  @radix4_fixed R (RNum c) (2 ^ k) = Ok d /\ dht_len d = (2 ^ k)%nat /\ transforms d dht_spec.
Proof. exact C73_repair_proof. Qed.
Print Assumptions C73_repair.

(** as it stands it transforms a rearrangement of the input *)
Theorem C73_permutation : forall (c : R) k, exists d p, @radix4 R (RNum c) (2 ^ k) = Ok d /\
  (forall x : list R, length x = (2 ^ k)%nat -> Permutation x (p x)) /\
  transforms d (fun x => dht_spec (p x)).
Proof. exact C73_permutation_proof. Qed.
Print Assumptions C73_permutation.

(** so the first output and the energy are right, and no information is lost: *)
Theorem C73_keeps : forall (c : R) k, exists d, @radix4 R (RNum c) (2 ^ k) = Ok d /\
  forall x : list R, length x = (2 ^ k)%nat -> exists X, @dht_process R (RNum c) d x = Ok X /\
    nth 0 X 0 = rsum (2 ^ k) (fun j => nth j x 0) /\
    rsum (2 ^ k) (fun j => nth j X 0 * nth j X 0) = INR (2 ^ k) * rsum (2 ^ k) (fun j => nth j x 0 * nth j x 0).
Proof. exact C73_keeps_proof. Qed.
Print Assumptions C73_keeps.

(** a fixed rearrangement [q] of the input before the call gives the DHT *)
Theorem C73_workaround : forall (c : R) k, exists d q, @radix4 R (RNum c) (2 ^ k) = Ok d /\
  (forall j, (j < 2 ^ k)%nat -> (q j < 2 ^ k)%nat) /\
  forall x : list R, length x = (2 ^ k)%nat ->
    @dht_process R (RNum c) d (map (fun j => nth (q j) x 0) (seq 0 (2 ^ k))) = Ok (dht_spec x).
Proof. exact C73_workaround_proof. Qed.
Print Assumptions C73_workaround.

(** the inputs on which it is right: those that the rearrangement [r4_index k] of C10 leaves alone *)
Theorem C73_right : forall (c : R) k, exists d, @radix4 R (RNum c) (2 ^ k) = Ok d /\
  forall x : list R, length x = (2 ^ k)%nat ->
    (@dht_process R (RNum c) d x = Ok (dht_spec x) <->
     forall j, (j < 2 ^ k)%nat -> nth (r4_index k j) x 0 = nth j x 0).
Proof. exact C73_right_proof. Qed.
Print Assumptions C73_right.

(** at 128 some input tells the two apart *)
Example C73_case : exists d d' x y,
  @radix4 R (RNum rh) (2 ^ 7) = Ok d /\ @radix4_fixed R (RNum rh) (2 ^ 7) = Ok d' /\ length x = (2 ^ 7)%nat /\
  @dht_process R (RNum rh) d' x = Ok (dht_spec x) /\ @dht_process R (RNum rh) d x = Ok y /\ y <> dht_spec x.
Proof. exact C73_case_proof. Qed.
