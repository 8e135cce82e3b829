(** * Supporting lemmas for PropsBench.v *)
From Verif Require Import Lemmas TreeProof NumTheory Residues MathProofs RootProofs PropsExactProof.
From Verif Require Export BenchProof Spec.
From Coq Require Import Lia NArith.

Lemma C62_proof : forall (T : Type) (NT : Num T) m (P : Dht T -> Prop),
  (forall d, P d -> obliging d /\ (0 < dht_len d -> modest d)) ->
  forall d, assembled m (over P) d -> obliging d /\ (0 < dht_len d -> modest d).
Proof.
  intros T NT m P HP d A. apply (assembled_obliging m (over P)); auto.
Qed.

Lemma made_exact m (d : Dht R) : @assembled R (RNum rh) m {| al_user := fun _ => False; al_radix4 := fun _ => False; al_rader := fun _ => False |} d -> transforms d dht_spec.
Proof. apply C12_proof; simpl; tauto. Qed.
Lemma C63_4xn_proof k : exists d, @make_4xn_radix4 R (RNum rh) (2 ^ S k) = Ok d /\ dht_len d = 2 ^ S k /\ transforms d dht_spec.
Proof.
  destruct (@make4_pow R (RNum rh) k (S (2 ^ S k))) as (d & E & L); [lia|]. exists d. split; auto. split; auto.
  apply (made_exact Debug). eapply made4; eauto.
Qed.
Lemma C63_3xn_proof k : exists d, @make_3xn_radix3 R (RNum rh) (3 ^ S k) = Ok d /\ dht_len d = 3 ^ S k /\ transforms d dht_spec.
Proof.
  destruct (@make3_pow R (RNum rh) k (S (3 ^ S k))) as (d & E & L); [lia|]. exists d. split; auto. split; auto.
  apply (made_exact Debug). eapply made3; eauto.
Qed.
Lemma C63_5xn_proof k : exists d, @make_5xn_radix5 R (RNum rh) (5 ^ S k) = Ok d /\ dht_len d = 5 ^ S k /\ transforms d dht_spec.
Proof.
  destruct (@make5_pow R (RNum rh) k (S (5 ^ S k))) as (d & E & L); [lia|]. exists d. split; auto. split; auto.
  apply (made_exact Debug). eapply made5; eauto.
Qed.
Lemma C63_6xn_proof k : exists d, @make_6xn_radix6 R (RNum rh) (6 ^ S k) = Ok d /\ dht_len d = 6 ^ S k /\ transforms d dht_spec.
Proof.
  destruct (@make6_pow R (RNum rh) k (S (6 ^ S k))) as (d & E & L); [lia|]. exists d. split; auto. split; auto.
  apply (made_exact Debug). eapply made6; eauto.
Qed.
Lemma C63_split_proof k : 4 <= k -> exists d, @make_splitradix R (RNum rh) (2 ^ k) = Ok d /\ dht_len d = 2 ^ k /\ transforms d dht_spec.
Proof.
  intros K. destruct (@make_split R (RNum rh) Debug {| al_user := fun _ => False; al_radix4 := fun _ => False; al_rader := fun _ => False |} (2 ^ k)) as (d & E & A & L).
  exists d. rewrite tz_pow in L. replace (Nat.max 4 k) with k in L by lia. split; auto. split; auto. now apply (made_exact Debug).
Qed.

Lemma C63_short_proof : forall (T : Type) (NT : Num T) k, k < 4 -> (exists d : Dht T, make_splitradix (2 ^ k) = Ok d /\ dht_len d = 16) /\
  forall count, bench_splitradix count (2 ^ k) = Panic.
Proof.
  intros T NT k K. destruct (@make_split T NT Debug library (2 ^ k)) as (d & E & _ & L). rewrite tz_pow in L. replace (Nat.max 4 k) with 4 in L by lia. change (2 ^ 4) with 16 in L.
  split; [exists d; auto|]. intros count. unfold bench_splitradix. rewrite E. cbn [bind]. rewrite L.
  destruct k as [|[|[|[|k]]]]; try lia; reflexivity.
Qed.
Lemma C63_silent_proof : forall (T : Type) (NT : Num T), exists d : Dht T, make_4xn_radix4 35 = Ok d /\ dht_len d = 32 /\ forall count, bench_4xn_radix4 count 35 = Ok tt.
Proof.
  intros T NT. exists (mixed_radix_4xn butterfly8). split; [reflexivity|]. split; [reflexivity|]. intros count.
  change (bench_4xn_radix4 count 35) with (bench_inplace (T := T) count (mixed_radix_4xn butterfly8)).
  apply inplace_ok; [apply (library_obliging Debug), as_4xn, as_bf8|simpl; lia].
Qed.
Lemma std_nprime p : 2 <= p -> (forall q, Nat.divide q p -> q = 1 \/ q = p) -> nprime (N.of_nat p).
Proof. intros H D. apply nprime_nat. rewrite Nat2N.id. split; auto. Qed.
Lemma noop_no_transform : forall (T : Type) (NT : Num T) (a b : T) n, a <> b -> 0 < n -> ~ exists f, transforms (noop n : Dht T) f.
Proof.
  intros T NT a b n N P (f & [_ _ H _]).
  assert (C : chunks_of n [repeat a n]) by (split; [discriminate|]; constructor; [apply repeat_length|constructor]).
  assert (L : length (concat [repeat a n]) = n) by (cbn [concat]; rewrite app_nil_r; apply repeat_length).
  destruct (H [repeat a n] (repeat a n) []) as (i1 & s1 & E1 & _); auto; [rewrite L; apply repeat_length|].
  destruct (H [repeat a n] (repeat b n) []) as (i2 & s2 & E2 & _); auto; [rewrite L; apply repeat_length|].
  cbn [dht_process_oop noop] in E1, E2. apply N. destruct n as [|n]; [lia|]. cbn [repeat] in *. congruence.
Qed.
