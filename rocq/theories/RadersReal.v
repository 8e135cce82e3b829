(** * Rader's algorithm over exact reals *)
From Verif Require Import Lemmas Contract RadersProof NumTheory Residues RealDHT DHTTheory ButterfliesReal SplitReal.
From Coq Require Import Reals Lra Lia List Arith.
Import ListNotations.
Local Open Scope R_scope.

Section Raders.
  Context (cst : R).
  Local Hint Extern 0 (Num R) => exact (RNum cst) : typeclass_instances.
  Variables (p r s : nat).
  Hypothesis Pp : std_prime p.
  Hypothesis p3 : (3 <= p)%nat.
  Hypothesis Or : no_small_order p r.
  Hypothesis Os : no_small_order p s.
  Hypothesis Hrs : ((r * s) mod p = 1)%nat.
  Let n := (p - 1)%nat.
  Variable fi : list R -> list R.
  Hypothesis fi_spec : forall y, length y = n -> fi y = dht_spec y.
  Variable x : list R.
  Hypothesis Lx : length x = p.

  Let u (j : nat) : R := nth (pw p r j) x 0.
  Let v (j : nat) : R := cas (ang p (pw p s j)) * / INR n.
  Let x0 := nth 0 x 0.

  Lemma np : (0 < n)%nat.
  Proof. unfold n. lia. Qed.

  Lemma gather_dht k : (k < n)%nat -> nth k (fi (raders_gather p r x)) 0 = dhtf n u k.
  Proof.
    intros Hk. unfold raders_gather. fold n. rewrite fi_spec by (now rewrite map_length, seq_length).
    rewrite nth_dht_of_map by auto. reflexivity.
  Qed.
  Lemma table_dht k : (k < n)%nat -> nth k (fi (raders_input p s)) 0 = dhtf n v k.
  Proof.
    intros Hk. unfold raders_input. fold n. rewrite fi_spec by (now rewrite map_length, seq_length).
    rewrite nth_dht_of_map by auto. apply rsum_ext. intros j Hj. f_equal. cbn [nmul nrecip RNum].
    rewrite dht_twiddle_val. reflexivity.
  Qed.

  Lemma neg_small k : (0 < k < n)%nat -> neg_idx n k = (n - k)%nat.
  Proof. intros. unfold neg_idx. apply Nat.mod_small. lia. Qed.
  Lemma neg_0 : neg_idx n 0 = 0%nat.
  Proof. unfold neg_idx. rewrite Nat.sub_0_r. apply Nat.mod_same. pose proof np. lia. Qed.

  Lemma n_even : (2 * (n / 2) = n)%nat.
  Proof.
    (* p is odd *)
    assert (E : (n mod 2 = 0)%nat).
    { destruct (Nat.eq_dec (n mod 2) 0) as [|N]; auto. exfalso.
      assert (Nat.divide 2 p).
      { apply Nat.mod_divide; [lia|]. replace p with (n + 1)%nat by (unfold n; lia).
        assert (n mod 2 = 1)%nat by (pose proof (Nat.mod_upper_bound n 2); lia).
        rewrite <- Nat.add_mod_idemp_l, H by lia. reflexivity. }
      destruct Pp as [_ D]. apply D in H. lia. }
    pose proof (Nat.div_mod n 2). lia.
  Qed.

  (** the products are the transform of x0 delta + conv *)
  Let tws := raders_table p (fi (raders_input p s)).
  Let w (k : nat) : R := (if (k =? 0)%nat then x0 else 0) + convf n u v k.

  Lemma tws_nth i : (i <= n / 2)%nat -> nth i tws (Cplx 0 0) =
    if (i =? 0)%nat then Cplx (dhtf n v 0) 0
    else if (2 * i <? n)%nat then Cplx (cpart n v i) (spart n v i)
    else Cplx (dhtf n v i) 0.
  Proof.
    intros Hi. pose proof np. pose proof n_even.
    assert (n / 2 < n)%nat by (apply Nat.div_lt; lia).
    unfold tws, raders_table. fold n. rewrite nth_map_seq by lia. cbv zeta. rewrite Nat.add_0_l.
    destruct (Nat.eqb_spec i 0) as [->|]; [cbn [nzero RNum]; now rewrite table_dht by lia|].
    destruct (Nat.ltb_spec (2 * i) n); cbn [nzero nadd nsub nmul nhalf RNum]; rewrite !table_dht by lia; auto.
    rewrite <- (neg_small i) by lia. rewrite dhtf_neg, dhtf_parts by lia. f_equal; lra.
  Qed.

  Lemma spart_0 f : spart n f 0 = 0.
  Proof. unfold spart. apply rsum_zero. intros j _. rewrite Nat.mul_0_r, ang_0, sin_0. lra. Qed.
  Lemma spart_half f i : (2 * i = n)%nat -> spart n f i = 0.
  Proof.
    intros Hi. pose proof np. apply rsum_zero. intros j _.
    destruct (ang_opp n (j * i) (j * i) j ltac:(lia)) as [_ S]; [nia|].
    assert (S0 : sin (ang n (j * i)) = 0) by lra. rewrite S0. lra.
  Qed.

  Lemma mul_dht k : (k < n)%nat ->
    nth k (raders_mul p tws x0 (fi (raders_gather p r x))) 0 = dhtf n u k * cpart n v k + dhtf n u (neg_idx n k) * spart n v k
      + (if (k =? 0)%nat then x0 else 0).
  Proof.
    intros Hk. pose proof np. pose proof n_even.
    unfold raders_mul. fold n. rewrite nth_map_seq by auto. cbv zeta. rewrite Nat.add_0_l. cbn [nzero nadd nsub nmul RNum].
    destruct (Nat.eqb_spec k 0) as [->|].
    - rewrite gather_dht, tws_nth by lia. simpl. rewrite spart_0, dhtf_parts with (u := v), spart_0. lra.
    - destruct (Nat.ltb_spec (2 * k) n).
      + rewrite !gather_dht, tws_nth by lia. destruct (Nat.eqb_spec k 0); [lia|].
        destruct (Nat.ltb_spec (2 * k) n); [|lia]. cbn [re im]. rewrite neg_small by lia. lra.
      + destruct (Nat.eqb_spec (2 * k) n).
        * rewrite gather_dht, tws_nth by lia. destruct (Nat.eqb_spec k 0); [lia|].
          destruct (Nat.ltb_spec (2 * k) n); [lia|]. cbn [re]. rewrite dhtf_parts with (u := v), spart_half by auto. lra.
        * rewrite !gather_dht, tws_nth by lia. destruct (Nat.eqb_spec (n - k) 0); [lia|].
          destruct (Nat.ltb_spec (2 * (n - k)) n); [|lia]. cbn [re im].
          rewrite <- !(neg_small k) by lia.
          assert (E : cpart n v (neg_idx n k) = cpart n v k /\ spart n v (neg_idx n k) = - spart n v k).
          { pose proof (dhtf_neg n v k ltac:(lia)) as E1. rewrite dhtf_parts in E1.
            pose proof (dhtf_neg n v (neg_idx n k)) as E2. pose proof (neg_idx_lt n k ltac:(lia)).
            rewrite neg_idx_invol in E2 by auto. specialize (E2 ltac:(lia)). rewrite dhtf_parts in E2. split; lra. }
          destruct E as [-> ->]. lra.
  Qed.

  Lemma second_dht k : (k < n)%nat ->
    nth k (fi (raders_mul p tws x0 (fi (raders_gather p r x)))) 0 = x0 + INR n * convf n u v k.
  Proof.
    intros Hk. pose proof np. rewrite fi_spec by (apply raders_mul_length).
    rewrite nth_dht_spec by (rewrite raders_mul_length; auto).
    rewrite dht_at_dhtf, raders_mul_length. fold n.
    rewrite (dhtf_ext n _ (fun i => 1 * dhtf n (convf n u v) i + x0 * (if (i =? 0)%nat then 1 else 0))).
    - rewrite dhtf_lin, dhtf_twice, dhtf_delta by auto. lra.
    - intros i Hi. rewrite mul_dht, conv_theorem by lia. destruct (i =? 0)%nat; lra.
  Qed.

  (** g^j s^k = s^(k-j mod n) modulo p *)
  Lemma powers_cancel j k : (j < n)%nat -> (k < n)%nat ->
    ((pw p r j * pw p s k) mod p = pw p s ((k + (n - j)) mod n))%nat.
  Proof.
    intros Hj Hk. pose proof np. unfold pw.
    assert (Pz : p <> 0%nat) by lia.
    rewrite Nat.mul_mod_idemp_l, Nat.mul_mod_idemp_r by auto.
    assert (F : (s ^ n mod p = 1)%nat) by (apply fermat_std; auto; apply Os).
    assert (P : forall a, (s ^ (a mod n) mod p = s ^ a mod p)%nat).
    { intros a. rewrite (Nat.div_mod a n) at 2 by lia. rewrite Nat.pow_add_r, Nat.pow_mul_r.
      rewrite <- Nat.mul_mod_idemp_l by auto. rewrite <- (pow_mod_l p (s ^ n)), F, Nat.pow_1_l by auto.
      rewrite Nat.mod_1_l by lia. now rewrite Nat.mul_1_l. }
    rewrite P.
    (* r^j * s^k = r^j s^j s^(k-j+n) *)
    assert (E : (r ^ j * s ^ j mod p = 1)%nat).
    { rewrite <- Nat.pow_mul_l, <- pow_mod_l, Hrs, Nat.pow_1_l by auto. apply Nat.mod_1_l. lia. }
    transitivity ((r ^ j * s ^ (k + n)) mod p)%nat.
    - rewrite Nat.pow_add_r, Nat.mul_assoc. rewrite <- (Nat.mul_mod_idemp_r _ (s ^ n)) by auto. now rewrite F, Nat.mul_1_r.
    - replace (k + n)%nat with (j + (k + (n - j)))%nat by lia. rewrite Nat.pow_add_r, Nat.mul_assoc.
      rewrite <- Nat.mul_mod_idemp_l by auto. now rewrite E, Nat.mul_1_l.
  Qed.

  (** the nonzero indices are the powers of r *)
  Lemma sum_powers f : rsum n (fun j => f (pw p r j)) = rsum n (fun i => f (S i)).
  Proof.
    pose proof np. destruct (order_distinct p r Pp Or) as [D1 D2]. pose proof (order_generates p r Pp Or) as G.
    set (lg i := match find (fun j => pw p r j =? S i)%nat (seq 0 n) with Some j => j | None => 0%nat end).
    assert (L : forall i, (i < n)%nat -> (lg i < n)%nat /\ pw p r (lg i) = S i).
    { intros i Hi. destruct (G (S i)) as (j & Hj & Ej); [unfold n in *; lia|]. unfold lg.
      destruct (find _ _) as [j'|] eqn:F.
      - apply find_some in F as [F1 F2]. apply in_seq in F1. apply Nat.eqb_eq in F2. split; [lia|auto].
      - exfalso. apply find_none with (x := j) in F; [|apply in_seq; unfold n; lia]. apply Nat.eqb_neq in F. auto. }
    assert (S1 : forall j, (j < n)%nat -> (pw p r j - 1 < n)%nat /\ S (pw p r j - 1) = pw p r j).
    { intros j Hj. pose proof (D1 j). unfold n. split; lia. }
    rewrite <- (rsum_perm n (fun j => pw p r j - 1)%nat lg (fun i => f (S i))).
    - apply rsum_ext. intros j Hj. now rewrite (proj2 (S1 j Hj)).
    - intros j Hj. destruct (S1 j Hj) as [A B]. split; auto. destruct (L _ A) as [C D].
      apply D2; auto; [now rewrite D].
    - intros i Hi. destruct (L i Hi) as [A B]. split; auto. rewrite B. lia.
  Qed.

  Lemma dht_prime k : dht_at x k = x0 + rsum n (fun j => u j * cas (ang p (pw p r j * k))).
  Proof.
    unfold dht_at. rewrite Lx. replace p with (S n) at 1 by (unfold n; lia). rewrite rsum_S_l.
    rewrite Nat.mul_0_l, ang_0. fold x0. f_equal; [unfold cas; rewrite cos_0, sin_0; lra|].
    unfold u. now rewrite (sum_powers (fun i => nth i x 0 * cas (ang p (i * k)))).
  Qed.

  Lemma raders_real : raders_fun p r s tws fi x = dht_spec x.
  Proof.
    pose proof np. apply dht_spec_ext.
    - unfold raders_fun. cbn [length]. rewrite map_length, seq_length, Lx. unfold n in *. lia.
    - intros k Hk. rewrite Lx in Hk. unfold raders_fun. cbv zeta. fold n.
      cbn [nzero nadd RNum]. fold x0. destruct k as [|k].
      + cbn [nth]. rewrite gather_dht, dhtf_zero by auto. rewrite dht_prime. f_equal. apply rsum_ext. intros j Hj.
        rewrite Nat.mul_0_r, ang_0. unfold cas. rewrite cos_0, sin_0. lra.
      + cbn [nth]. assert (Hk' : (k < n)%nat) by (unfold n; lia).
        rewrite (nth_map_seq (fun k => nth (raders_log p s k) (fi (raders_mul p tws x0 (fi (raders_gather p r x)))) 0)) by auto.
        destruct (order_generates p s Pp Os (1 + k)%nat) as (j & Hj & Ej); [lia|]. fold n in Hj.
        assert (L : (raders_log p s (1 + k)%nat < n)%nat /\ pw p s (raders_log p s (1 + k)%nat) = S k).
        { unfold raders_log. fold n. destruct (find _ _) as [j'|] eqn:F.
          - apply find_some in F as [F1 F2]. apply in_seq in F1. apply Nat.eqb_eq in F2. split; [lia|auto].
          - exfalso. apply find_none with (x := j) in F; [|apply in_seq; lia]. apply Nat.eqb_neq in F. auto. }
        set (e := raders_log p s (1 + k)%nat) in *. clearbody e. destruct L as [L1 L2].
        rewrite second_dht by auto. rewrite dht_prime. f_equal. unfold convf. rewrite <- rsum_scal.
        apply rsum_ext. intros i Hi. unfold v.
        rewrite <- powers_cancel, L2, cas_ang_mod by (auto; lia). field. apply not_0_INR. lia.
  Qed.
End Raders.
