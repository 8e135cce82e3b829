(** * Properties C17 and C18: no unchecked out-of-bounds access, no endless loop

    For every number type and every composition tree over user instances that are only known to be written in
    safe Rust ([safe_rust], Api.v): they may compute garbage, scribble over scratch, panic, and report any
    lengths, but they cannot change the length of a slice they are lent. *)
From Verif Require Import PropsSafetyProof.

(** ** C17: the library performs no unchecked access outside a slice, and never changes slice lengths *)
Theorem C17_memory_safe : forall T (NT : Num T) m (A : allowed T),
  (forall d, al_user A d -> safe_rust d) -> forall d, assembled m A d -> safe_rust d.
Proof. exact @C17_proof. Qed.
Print Assumptions C17_memory_safe.
(** a SplitRadix over a MixedRadix3xn and a MixedRadix of hostile instances *)
Example C17_case : forall T (NT : Num T), exists d,
  @assembled T NT Debug {| al_user := fun d => exists n, d = hostile n; al_radix4 := fun _ => True; al_rader := fun _ => True |} d
  /\ dht_len d = 36 /\ safe_rust d.
Proof. exact C17_case_proof. Qed.

(** ** C18: every call returns or panics if the user's instances do *)
Theorem C18_terminates : forall T (NT : Num T) m (A : allowed T),
  (forall d, al_user A d -> safe_rust d /\ terminating d) -> forall d, assembled m A d -> terminating d.
Proof. exact @C18_proof. Qed.
Print Assumptions C18_terminates.
Theorem C18_process : forall T (NT : Num T) m (A : allowed T),
  (forall d, al_user A d -> safe_rust d /\ terminating d) ->
  forall d, assembled m A d -> forall buffer, dht_process d buffer <> Hang /\ dht_process d buffer <> UB.
Proof. exact @C18_process_proof. Qed.
Print Assumptions C18_process.
Example C18_case : forall T (NT : Num T) n, safe_rust (hostile' n) /\ terminating (hostile' n).
Proof. exact @hostile'_ok. Qed.
