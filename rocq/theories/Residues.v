(** * Powers of a residue modulo a prime *)
From Verif Require Import NumTheory RadersProof.
From Coq Require Import Arith Lia List Wf_nat.
Import ListNotations.

(** no proper positive power below p-1 is 1 *)
Definition no_small_order (p r : nat) : Prop :=
  r mod p <> 0 /\ forall k, 0 < k < p - 1 -> r ^ k mod p <> 1.

(** the test of the root search *)
Lemma factor_test p r : std_prime p -> r mod p <> 0 ->
  (forall q, std_prime q -> Nat.divide q (p - 1) -> r ^ ((p - 1) / q) mod p <> 1) ->
  no_small_order p r.
Proof.
  intros Hp Hr Ht. split; auto. intros k Hk E. pose proof (std_prime_ge2 p Hp).
  pose proof (fermat_std p r Hp Hr) as F.
  pose proof (pow_gcd p r Hp Hr k (p - 1) E F) as G.
  set (g := Nat.gcd k (p - 1)) in *.
  assert (g <> 0) by (intros Z; apply Nat.gcd_eq_0_l in Z; lia).
  destruct (Nat.gcd_divide_r k (p - 1)) as [c Hc]. fold g in Hc.
  destruct (Nat.gcd_divide_l k (p - 1)) as [c' Hc']. fold g in Hc'.
  assert (1 < c) by (destruct c as [|[|c]]; destruct c'; nia).
  destruct (prime_divisor c) as (q & Hq & [e He]); auto.
  pose proof (std_prime_ge2 q Hq).
  apply (Ht q Hq).
  - exists (e * g). nia.
  - replace ((p - 1) / q) with (g * e).
    + rewrite Nat.pow_mul_r, <- pow_mod_l, G, Nat.pow_1_l by lia. apply Nat.mod_small. lia.
    + rewrite Hc, He. replace (e * q * g) with (g * e * q) by lia. symmetry. apply Nat.div_mul. lia.
Qed.

Lemma order_distinct p r : std_prime p -> no_small_order p r -> distinct_powers p r.
Proof.
  intros Hp [Hr Ho]. pose proof (std_prime_ge2 p Hp). split.
  - intros j. unfold pw. pose proof (pow_mod_nz p r j Hp Hr).
    pose proof (Nat.mod_upper_bound (r ^ j) p ltac:(lia)). lia.
  - assert (W : forall i j, i < j -> j < p - 1 -> pw p r i <> pw p r j).
    { intros i j Hij Hj E. unfold pw in E. replace j with (i + (j - i)) in E by lia.
      rewrite Nat.pow_add_r in E. rewrite <- (Nat.mul_1_r (r ^ i)) in E at 1.
      apply mod_cancel in E; auto using pow_mod_nz. rewrite (Nat.mod_small 1) in E by lia.
      apply (Ho (j - i)); [lia|auto]. }
    intros i j Hi Hj E. destruct (lt_eq_lt_dec i j) as [[L|L]|L]; auto; exfalso.
    + apply (W i j); auto.
    + apply (W j i); auto.
Qed.

Lemma order_generates p r : std_prime p -> no_small_order p r -> generates p r.
Proof.
  intros Hp Ho. destruct (order_distinct p r Hp Ho) as [D1 D2]. intros k Hk.
  assert (In k (map (pw p r) (seq 0 (p - 1)))) as Hin.
  { apply (@NoDup_length_incl nat (map (pw p r) (seq 0 (p - 1))) (seq 1 (p - 1))).
    - apply NoDup_nth with (d := 0). rewrite map_length, seq_length. intros i j Hi Hj E.
      rewrite !nth_map_seq in E by auto. apply D2 in E; auto.
    - now rewrite map_length, !seq_length.
    - intros x Hx. apply in_map_iff in Hx as (j & <- & _). apply in_seq. specialize (D1 j). lia.
    - apply in_seq. lia. }
  apply in_map_iff in Hin as (j & E & Hj). apply in_seq in Hj. exists j. split; auto. lia.
Qed.

Lemma generates_order p r : std_prime p -> r mod p <> 0 -> generates p r -> no_small_order p r.
Proof.
  intros Hp Hr Hg. split; auto. intros k Hk E. pose proof (std_prime_ge2 p Hp).
  (* all powers repeat with period k, so fewer than p-1 values *)
  assert (P : forall q j, r ^ (j + q * k) mod p = r ^ j mod p).
  { intros q j. rewrite Nat.pow_add_r, (Nat.mul_comm q), Nat.pow_mul_r.
    rewrite <- Nat.mul_mod_idemp_r, <- pow_mod_l, E, Nat.pow_1_l by lia.
    now rewrite (Nat.mod_small 1), Nat.mul_1_r by lia. }
  assert (I : incl (seq 1 (p - 1)) (map (pw p r) (seq 0 k))).
  { intros x Hx. apply in_seq in Hx. destruct (Hg x) as (j & Hj & Ej); [lia|].
    apply in_map_iff. exists (j mod k). split.
    - unfold pw in *. rewrite <- Ej. rewrite (Nat.div_mod j k) at 2 by lia.
      rewrite Nat.add_comm, (Nat.mul_comm k). now rewrite P.
    - apply in_seq. pose proof (Nat.mod_upper_bound j k). lia. }
  apply NoDup_incl_length in I; [|apply seq_NoDup]. rewrite map_length, !seq_length in I. lia.
Qed.

Lemma inverse_order p r s : std_prime p -> no_small_order p r -> (r * s) mod p = 1 -> no_small_order p s.
Proof.
  intros Hp [Hr Ho] E. pose proof (std_prime_ge2 p Hp). split.
  - intros Z. rewrite <- Nat.mul_mod_idemp_r, Z, Nat.mul_0_r, Nat.mod_0_l in E; lia.
  - intros k Hk Ek. apply (Ho k Hk).
    assert (M : (r * s) ^ k mod p = 1).
    { rewrite <- pow_mod_l, E, Nat.pow_1_l by lia. apply Nat.mod_small. lia. }
    rewrite Nat.pow_mul_l, <- Nat.mul_mod_idemp_r, Ek, Nat.mul_1_r in M by lia. auto.
Qed.

Lemma primitive_root_exists p : std_prime p -> exists g, 1 <= g < p /\ no_small_order p g.
Proof.
  intros Hp. destruct (prim_root_std p Hp) as (g & H1 & H2 & H3). exists g. split; [lia|].
  split; [rewrite Nat.mod_small; lia|]. intros k [K1 K2]. apply H3; auto.
Qed.
