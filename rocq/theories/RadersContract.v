(** * RadersAlgorithm::new meets the contract for every odd prime up to 2^32 *)
From Verif Require Import NumTheory Residues MathProofs RootProofs.
From Verif Require Export RadersProof.
From Coq Require Import Lia NArith.

Section RadersContract.
  Context {T : Type} {NT : Num T}.

  Lemma odd_prime_even p : std_prime p -> 3 <= p -> p - 1 = 2 * ((p - 1) / 2).
  Proof.
    intros [_ Hp] H3. pose proof (Nat.div_mod (p - 1) 2 ltac:(lia)) as D.
    pose proof (Nat.mod_upper_bound (p - 1) 2 ltac:(lia)).
    destruct (Nat.eq_dec ((p - 1) mod 2) 0) as [E|E]; [lia|]. exfalso.
    destruct (Hp 2); [|lia|lia]. exists ((p - 1) / 2 + 1). lia.
  Qed.

  Lemma dht_process_ok (d : Dht T) fi x : dht_ok d fi -> 0 < dht_len d -> length x = dht_len d ->
    dht_process d x = Ok (fi x).
  Proof.
    intros Hd Hl Hx. unfold dht_process.
    destruct (ok_inplace _ _ Hd Hl 1 x (repeat nzero (dht_inplace_scratch d))) as (s & E & _); try lia.
    - rewrite repeat_length. lia.
    - rewrite E. cbn [bind]. now rewrite map_chunks_one.
  Qed.

  Definition raders_extra (d : Dht T) : nat :=
    if dht_inplace_scratch d <=? dht_len d then 0 else dht_inplace_scratch d.

  Lemma raders_ok m d fi :
    dht_ok d fi -> nprime (N.of_nat (dht_len d + 1)) -> 2 <= dht_len d ->
    (N.of_nat (dht_len d + 1) <= 2 ^ 32)%N ->
    exists D r s, raders m d = Ok D /\
      let p := dht_len d + 1 in
      raders_roots m p = Ok (r, s) /\
      2 <= r < p /\ s < p /\ no_small_order p r /\ no_small_order p s /\ (r * s) mod p = 1 /\
      dht_ok D (raders_fun p r s (raders_table p (fi (raders_input p s))) fi) /\ dht_strict D /\
      dht_len D = p /\ dht_inplace_scratch D = dht_len d + raders_extra d /\
      dht_oop_scratch D = raders_extra d.
  Proof.
    intros Hd Pp H2 Hs. set (p := dht_len d + 1) in *.
    assert (Sp : std_prime p) by (apply nprime_nat in Pp; now rewrite Nat2N.id in Pp).
    destruct (raders_roots_ok m p Pp) as (r & s & E & Hr & Hsl & Or & Os & Hrs); [unfold p; lia|auto|].
    assert (Hn : p - 1 = dht_len d) by (unfold p; lia).
    unfold raders. fold p. rewrite (proj2 (miller_rabin_ok (N.of_nat p)) Pp). cbn [rassert bind].
    rewrite E. cbn [bind].
    assert (Ev := odd_prime_even p Sp ltac:(unfold p; lia)).
    rewrite (raders_dht_input_ok m p r s ltac:(unfold p; lia) Ev Hs ltac:(lia) Hsl). cbn [bind].
    assert (Li : length (raders_input (T := T) p s) = dht_len d)
      by (unfold raders_input; rewrite map_length, seq_length; lia).
    rewrite (dht_process_ok d fi) by (auto; lia). cbn [bind].
    assert (LB : length (fi (raders_input p s)) = p - 1) by (rewrite Hn; now apply (ok_len _ _ Hd)).
    rewrite (raders_twiddles_ok p r s ltac:(unfold p; lia) Ev Hs ltac:(lia) Hsl) by auto. cbn [bind].
    eexists _, r, s. split; [reflexivity|]. cbv zeta.
    destruct (raders_inst_ok m p r s ltac:(unfold p; lia) Ev Hs ltac:(lia) Hsl
      (order_distinct p r Sp Or) (order_distinct p s Sp Os) (order_generates p s Sp Os) d fi Hd
      ltac:(lia) (raders_table p (fi (raders_input p s)))) as [H H'].
    { apply raders_table_length. }
    unfold raders_inst in H, H'. cbv zeta in H, H'. rewrite Hn in H, H'.
    split; [auto|]. split; [auto|]. split; [auto|]. split; [auto|]. split; [auto|]. split; [auto|].
    exact (conj H (conj H' (conj eq_refl (conj eq_refl eq_refl)))).
  Qed.

  (** the constructor rejects everything else *)
  Lemma raders_composite m d : ~ nprime (N.of_nat (dht_len d + 1)) -> raders m d = Panic.
  Proof.
    intros H. unfold raders. destruct (miller_rabin (N.of_nat (dht_len d + 1))) eqn:E; auto.
    apply miller_rabin_ok in E. tauto.
  Qed.

  Lemma raders_two m d : dht_len d = 1 -> raders m d = Panic.
  Proof.
    intros H. unfold raders. rewrite H. replace (raders_roots m (1 + 1)) with (Panic (A := nat * nat)).
    - vm_compute (miller_rabin (N.of_nat (1 + 1))). reflexivity.
    - symmetry. destruct m; vm_compute; reflexivity.
  Qed.
End RadersContract.
