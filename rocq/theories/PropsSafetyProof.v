(** * Proofs of C17 and C18 *)
From Verif Require Import Lemmas.
From Verif Require Export Safety.
From Coq Require Import Lia NArith.

Section P.
  Context {T : Type} {NT : Num T}.
  Lemma C17_proof m (A : allowed T) : (forall d, al_user A d -> safe_rust d) ->
    forall d, assembled m A d -> safe_rust d.
  Proof. intros U d H. apply harmless_safe, (assembled_harmless true m A); auto. intros. now apply harmless_safe, U. Qed.
  Lemma C18_proof m (A : allowed T) : (forall d, al_user A d -> safe_rust d /\ terminating d) ->
    forall d, assembled m A d -> terminating d.
  Proof.
    intros U d H. apply harmless_terminating, (assembled_harmless false m A); auto. intros. now apply harmless_terminating, U.
  Qed.
  Lemma C18_process_proof m (A : allowed T) : (forall d, al_user A d -> safe_rust d /\ terminating d) ->
    forall d, assembled m A d -> forall buffer, dht_process d buffer <> Hang /\ dht_process d buffer <> UB.
  Proof.
    intros U d H b. destruct (C18_proof m A U d H) as [T1 _].
    pose proof (C17_proof m A (fun d K => proj1 (U d K)) d H) as S. 
    specialize (T1 b (repeat nzero (dht_inplace_scratch d))). pose proof (proj1 (sr_inplace d S b (repeat nzero (dht_inplace_scratch d)))) as N.
    unfold dht_process. destruct (dht_process_with_scratch d b _) as [[? ?]| | |]; simpl; split; congruence.
  Qed.

  (** an instance that overwrites everything it is lent and panics on empty scratch *)
  Definition hostile (n : nat) : Dht T :=
    mkDht n (3 * n) (5 * n)
      (fun b s => if length s =? 0 then Panic else Ok (map (fun _ => nzero) b, rev s))
      (fun i o s => if length s =? 1 then Hang else Ok (rev i, map (fun _ => nzero) o, s)).
  Lemma hostile_safe n : safe_rust (hostile n).
  Proof.
    split; intros; simpl; destruct (_ =? _); (split; [discriminate|]); try discriminate.
    - intros ? ? E. injection E as <- <-. now rewrite map_length, rev_length.
    - intros ? ? ? E. injection E as <- <- <-. now rewrite map_length, rev_length.
  Qed.
  Definition hostile' (n : nat) : Dht T :=
    mkDht n (3 * n) (5 * n)
      (fun b s => if length s =? 0 then Panic else Ok (map (fun _ => nzero) b, rev s))
      (fun i o s => Ok (rev i, map (fun _ => nzero) o, s)).
  Lemma hostile'_ok n : safe_rust (hostile' n) /\ terminating (hostile' n).
  Proof.
    split; [split|split]; intros; simpl; try (destruct (_ =? _)); try discriminate; (split; [discriminate|]); try discriminate.
    - intros ? ? E. injection E as <- <-. now rewrite map_length, rev_length.
    - intros ? ? ? E. injection E as <- <- <-. now rewrite map_length, rev_length.
  Qed.
End P.

Lemma C17_case_proof : forall T (NT : Num T), exists d, @assembled T NT Debug {| al_user := fun d => exists n, d = hostile n; al_radix4 := fun _ => True; al_rader := fun _ => True |} d
  /\ dht_len d = 36 /\ safe_rust d.
Proof.
  intros T NT. set (A := {| al_user := _; al_radix4 := _; al_rader := _ |}).
  pose (dq := @mixed_radix_3xn T NT (hostile 3)). pose (dh := @mixed_radix T NT (hostile 2) (hostile 9)).
  destruct (@split_radix T NT dq dh) as [d| | |] eqn:E; try discriminate E.
  assert (D : @assembled T NT Debug A d).
  { apply (as_split _ _ dq dh); auto; [apply as_3xn|apply as_mixed]; apply as_user; eexists; reflexivity. }
  exists d. split; [exact D|]. split.
  - injection E as <-. reflexivity.
  - apply (C17_proof Debug A); auto. intros d' [n ->]. apply hostile_safe.
Qed.
