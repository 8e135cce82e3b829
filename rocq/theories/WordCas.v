(** * A pair of index sequences through which Rader's algorithm computes the transform *)
From Verif Require Import Lemmas RadersProof NumTheory Residues RealDHT DHTTheory ButterfliesReal SplitReal Spec ParamTree WordSpec.
From Coq Require Import Reals Lra Lia List Arith.
Import ListNotations.
Local Open Scope R_scope.

Lemma cas_sin t : cas t = sqrt 2 * sin (t + PI / 4).
Proof. rewrite sin_plus, cos_PI4, sin_PI4. unfold cas. field. apply Rgt_not_eq, sqrt_lt_R0. lra. Qed.
(** for odd [n] the values [cas (2 pi a / n)] are distinct *)
Lemma cas_inj n a b : Nat.Odd n -> (a < n)%nat -> (b < n)%nat -> cas (ang n a) = cas (ang n b) -> a = b.
Proof.
  intros [h Hh] La Lb E. assert (Pn : 0 < INR n) by (apply lt_0_INR; lia). pose proof PI_RGT_0 as PP.
  rewrite !cas_sin in E. apply Rmult_eq_reg_l in E; [|apply Rgt_not_eq, sqrt_lt_R0; lra].
  pose proof (form4 (ang n a + PI / 4) (ang n b + PI / 4)) as F. rewrite E in F.
  assert (Z : cos ((ang n a + PI / 4 + (ang n b + PI / 4)) / 2) = 0 \/ sin ((ang n a + PI / 4 - (ang n b + PI / 4)) / 2) = 0).
  { assert (Q : cos ((ang n a + PI / 4 + (ang n b + PI / 4)) / 2) * sin ((ang n a + PI / 4 - (ang n b + PI / 4)) / 2) = 0) by lra. now apply Rmult_integral. }
  destruct Z as [Z|Z].
  - exfalso. destruct (cos_eq_0_0 _ Z) as [z Hz]. unfold ang in Hz.
    assert (Q : 4 * (INR a + INR b) = INR n * (1 + 4 * IZR z)).
    { apply (Rmult_eq_reg_r (PI / (4 * INR n))); [|apply Rgt_not_eq; unfold Rdiv; apply Rmult_lt_0_compat; [lra|apply Rinv_0_lt_compat; lra]].
      replace (4 * (INR a + INR b) * (PI / (4 * INR n))) with ((2 * PI * INR a / INR n + PI / 4 + (2 * PI * INR b / INR n + PI / 4)) / 2 - PI / 4) by (field; lra).
      rewrite Hz. field. lra. }
    rewrite !INR_IZR_INZ in Q. assert (Q' : IZR (4 * (Z.of_nat a + Z.of_nat b)) = IZR (Z.of_nat n * (1 + 4 * z))) by (rewrite !mult_IZR, !plus_IZR, mult_IZR; lra).
    apply eq_IZR in Q'. rewrite Hh in Q'. lia.
  - destruct (sin_eq_0_0 _ Z) as [z Hz]. unfold ang in Hz.
    assert (Q : INR a - INR b = INR n * IZR z).
    { apply (Rmult_eq_reg_r (PI / INR n)); [|apply Rgt_not_eq; unfold Rdiv; apply Rmult_lt_0_compat; [lra|apply Rinv_0_lt_compat; lra]].
      replace ((INR a - INR b) * (PI / INR n)) with ((2 * PI * INR a / INR n + PI / 4 - (2 * PI * INR b / INR n + PI / 4)) / 2) by (field; lra).
      rewrite Hz. field. lra. }
    rewrite !INR_IZR_INZ in Q. assert (Q' : IZR (Z.of_nat a - Z.of_nat b) = IZR (Z.of_nat n * z)) by (rewrite mult_IZR, minus_IZR; lra).
    apply eq_IZR in Q'. assert (z = 0)%Z by nia. lia.
Qed.

(** ** what the two inner transforms and the products compute, for any sequences *)
Section Second.
  Context (cst : R).
  Local Hint Extern 0 (Num R) => exact (RNum cst) : typeclass_instances.
  Variables (p : nat) (u v : nat -> R) (x0 : R).
  Let n := (p - 1)%nat.
  Hypothesis n2 : (2 <= n)%nat.
  Hypothesis ne : (2 * (n / 2) = n)%nat.
  Let A := dht_spec (map u (seq 0 n)).
  Let tws := raders_table p (dht_spec (map v (seq 0 n))).

  Lemma sec_u k : (k < n)%nat -> nth k A 0 = dhtf n u k.
  Proof. intros Hk. unfold A. now rewrite nth_dht_of_map. Qed.
  Lemma sec_v k : (k < n)%nat -> nth k (dht_spec (map v (seq 0 n))) 0 = dhtf n v k.
  Proof. intros Hk. now rewrite nth_dht_of_map. Qed.
  Lemma sec_neg k : (0 < k < n)%nat -> neg_idx n k = (n - k)%nat.
  Proof. intros. unfold neg_idx. apply Nat.mod_small. lia. Qed.
  Lemma sec_tws i : (i <= n / 2)%nat -> nth i tws (Cplx 0 0) =
    if (i =? 0)%nat then Cplx (dhtf n v 0) 0
    else if (2 * i <? n)%nat then Cplx (cpart n v i) (spart n v i)
    else Cplx (dhtf n v i) 0.
  Proof.
    intros Hi. assert (n / 2 < n)%nat by (apply Nat.div_lt; lia).
    unfold tws, raders_table. fold n. rewrite nth_map_seq by lia. cbv zeta. rewrite Nat.add_0_l.
    destruct (Nat.eqb_spec i 0) as [->|]; [cbn [nzero RNum]; now rewrite sec_v by lia|].
    destruct (Nat.ltb_spec (2 * i) n); cbn [nzero nadd nsub nmul nhalf RNum]; rewrite !sec_v by lia; auto.
    rewrite <- (sec_neg i) by lia. rewrite dhtf_neg, dhtf_parts by lia. f_equal; lra.
  Qed.
  Lemma sec_s0 f : spart n f 0 = 0.
  Proof. unfold spart. apply rsum_zero. intros j _. rewrite Nat.mul_0_r, ang_0, sin_0. lra. Qed.
  Lemma sec_half f i : (2 * i = n)%nat -> spart n f i = 0.
  Proof.
    intros Hi. apply rsum_zero. intros j _. destruct (ang_opp n (j * i) (j * i) j ltac:(lia)) as [_ S]; [nia|].
    assert (S0 : sin (ang n (j * i)) = 0) by lra. rewrite S0. lra.
  Qed.
  Lemma sec_mul k : (k < n)%nat ->
    nth k (raders_mul p tws x0 A) 0 = dhtf n u k * cpart n v k + dhtf n u (neg_idx n k) * spart n v k
      + (if (k =? 0)%nat then x0 else 0).
  Proof.
    intros Hk. unfold raders_mul. fold n. rewrite nth_map_seq by auto. cbv zeta. rewrite Nat.add_0_l. cbn [nzero nadd nsub nmul RNum].
    destruct (Nat.eqb_spec k 0) as [->|].
    - rewrite sec_u, sec_tws by lia. simpl. rewrite sec_s0, dhtf_parts with (u := v), sec_s0. lra.
    - destruct (Nat.ltb_spec (2 * k) n).
      + rewrite !sec_u, sec_tws by lia. destruct (Nat.eqb_spec k 0); [lia|].
        destruct (Nat.ltb_spec (2 * k) n); [|lia]. cbn [re im]. rewrite sec_neg by lia. lra.
      + destruct (Nat.eqb_spec (2 * k) n).
        * rewrite sec_u, sec_tws by lia. destruct (Nat.eqb_spec k 0); [lia|].
          destruct (Nat.ltb_spec (2 * k) n); [lia|]. cbn [re]. rewrite dhtf_parts with (u := v), sec_half by auto. lra.
        * rewrite !sec_u, sec_tws by lia. destruct (Nat.eqb_spec (n - k) 0); [lia|].
          destruct (Nat.ltb_spec (2 * (n - k)) n); [|lia]. cbn [re im].
          rewrite <- !(sec_neg k) by lia.
          assert (E : cpart n v (neg_idx n k) = cpart n v k /\ spart n v (neg_idx n k) = - spart n v k).
          { pose proof (dhtf_neg n v k ltac:(lia)) as E1. rewrite dhtf_parts in E1.
            pose proof (dhtf_neg n v (neg_idx n k)) as E2. pose proof (neg_idx_lt n k ltac:(lia)).
            rewrite neg_idx_invol in E2 by auto. specialize (E2 ltac:(lia)). rewrite dhtf_parts in E2. split; lra. }
          destruct E as [-> ->]. lra.
  Qed.
  Lemma second_walk k : (k < n)%nat -> nth k (dht_spec (raders_mul p tws x0 A)) 0 = x0 + INR n * convf n u v k.
  Proof.
    intros Hk. rewrite nth_dht_spec by (rewrite raders_mul_length; auto).
    rewrite dht_at_dhtf, raders_mul_length. fold n.
    rewrite (dhtf_ext n _ (fun i => 1 * dhtf n (convf n u v) i + x0 * (if (i =? 0)%nat then 1 else 0))).
    - rewrite dhtf_lin, dhtf_twice, dhtf_delta by (auto; lia). lra.
    - intros i Hi. rewrite sec_mul, conv_theorem by lia. destruct (i =? 0)%nat; lra.
  Qed.
End Second.

(** ** the sequences are determined by the transform *)
Lemma surj_inj n (f : nat -> nat) : (forall a, 1 <= a <= n -> exists j, j < n /\ f j = a)%nat ->
  forall i j, (i < n -> j < n -> f i = f j -> i = j)%nat.
Proof.
  intros S i j Hi Hj E.
  assert (Nd : NoDup (map f (seq 0 n))).
  { apply (@NoDup_incl_NoDup nat (seq 1 n)); [apply seq_NoDup|rewrite map_length, !seq_length; lia|].
    intros a Ha. apply in_seq in Ha. destruct (S a ltac:(lia)) as (q & Hq & <-). apply in_map, in_seq. lia. }
  rewrite NoDup_nth with (d := O) in Nd. apply Nd; rewrite ?map_length, ?seq_length; auto. now rewrite !nth_map_seq.
Qed.
Lemma inj_surj n (f : nat -> nat) : (forall i, i < n -> 1 <= f i <= n)%nat -> (forall i j, i < n -> j < n -> f i = f j -> i = j)%nat ->
  forall a, (1 <= a <= n)%nat -> exists j, (j < n /\ f j = a)%nat.
Proof.
  intros B I a Ha. assert (In a (map f (seq 0 n))) as Hin.
  { apply (@NoDup_length_incl nat (map f (seq 0 n)) (seq 1 n)).
    - apply NoDup_nth with (d := O). rewrite map_length, seq_length. intros i j Hi Hj E. rewrite !nth_map_seq in E by auto. now apply I.
    - now rewrite map_length, !seq_length.
    - intros x Hx. apply in_map_iff in Hx as (j & <- & Hj). apply in_seq in Hj. apply in_seq. specialize (B j ltac:(lia)). lia.
    - apply in_seq. lia. }
  apply in_map_iff in Hin as (j & E & Hj). apply in_seq in Hj. exists j. split; auto. lia.
Qed.

Section Sequences.
  Variables (p : nat) (v w : nat -> nat).
  Let n := (p - 1)%nat.
  Hypothesis Pp : std_prime p.
  Hypothesis Op : Nat.Odd p.
  Hypothesis p3 : (3 <= p)%nat.
  Hypothesis Bv : forall j, (j < n -> 1 <= v j < p)%nat.
  Hypothesis Bw : forall j, (j < n -> 1 <= w j < p)%nat.
  Hypothesis HF : forall a k, (a < p)%nat -> (k < n)%nat -> (forall k', (k < k' < n)%nat -> w k' <> w k) -> let x := unit_vec p a in
    dht_at x (w k) = nth 0 x 0 + rsum n (fun j => nth (v j) x 0 * cas (ang p (w ((k + (n - j)) mod n)%nat))).

  Let e := unit_vec p.
  Lemma e_len a : length (e a) = p.
  Proof. unfold e, unit_vec. now rewrite map_length, seq_length. Qed.
  Lemma e_nth a i : (i < p)%nat -> nth i (e a) 0 = if (i =? a)%nat then 1 else 0.
  Proof. intros Hi. unfold e, unit_vec. now rewrite nth_map_seq. Qed.
  Lemma e_dht a k : (a < p)%nat -> dht_at (e a) k = cas (ang p (a * k)).
  Proof.
    intros Ha. unfold dht_at. rewrite e_len, (rsum_single p a); [|exact Ha|].
    - rewrite e_nth, Nat.eqb_refl by exact Ha. ring.
    - intros j Hj Nj. rewrite e_nth by exact Hj. destruct (Nat.eqb_spec j a); [contradiction|ring].
  Qed.
  Lemma cas_nz i : cas (ang p i) <> 0.
  Proof.
    intros Z. apply cas_zero in Z; [|lia]. destruct Z as [q Hq]. destruct Op as [h Hh]. lia.
  Qed.
  Lemma v_surj a : (1 <= a <= n)%nat -> exists j, (j < n /\ v j = a)%nat.
  Proof.
    intros Ha. assert (Hn : (n = p - 1)%nat) by reflexivity.
    destruct (in_dec Nat.eq_dec a (map v (seq 0 n))) as [I|I].
    - apply in_map_iff in I as (j & E & Hj). apply in_seq in Hj. exists j. split; [lia|exact E].
    - exfalso. pose proof (HF a (n - 1)%nat ltac:(lia) ltac:(lia) ltac:(intros; lia)) as F. cbv zeta in F. fold (e a) in F.
      rewrite e_dht, e_nth in F by lia. destruct (Nat.eqb_spec 0 a); [lia|]. rewrite rsum_zero in F.
      + apply (cas_nz (a * w (n - 1))). lra.
      + intros j Hj. pose proof (Bv j Hj). rewrite e_nth by lia. destruct (Nat.eqb_spec (v j) a) as [E|]; [|ring].
        exfalso. apply I. rewrite <- E. apply in_map, in_seq. lia.
  Qed.
  Lemma v_inj i j : (i < n -> j < n -> v i = v j -> i = j)%nat.
  Proof. apply surj_inj. apply v_surj. Qed.
  Lemma last_step j k : (j < n)%nat -> (k < n)%nat -> (forall k', (k < k' < n)%nat -> w k' <> w k) ->
    ((v j * w k) mod p = w ((k + (n - j)) mod n))%nat.
  Proof.
    intros Hj Hk L. assert (Hn : (n = p - 1)%nat) by reflexivity. pose proof (Bv j Hj) as Vj.
    pose proof (HF (v j) k ltac:(lia) Hk L) as F. cbv zeta in F. fold (e (v j)) in F.
    rewrite e_dht, e_nth in F by lia. destruct (Nat.eqb_spec 0 (v j)); [lia|]. rewrite (rsum_single n j) in F.
    - rewrite e_nth, Nat.eqb_refl in F by lia. rewrite <- cas_ang_mod in F by lia.
      apply (cas_inj p); [exact Op|apply Nat.mod_upper_bound; lia|apply Bw, Nat.mod_upper_bound; lia|lra].
    - exact Hj.
    - intros i Hi Ni. pose proof (Bv i Hi). rewrite e_nth by lia. destruct (Nat.eqb_spec (v i) (v j)) as [E|]; [|ring].
      exfalso. apply Ni. now apply v_inj.
  Qed.
  Lemma w_inj i j : (i < n -> j < n -> w i = w j -> i = j)%nat.
  Proof.
    assert (Hn : (n = p - 1)%nat) by reflexivity.
    assert (S : forall i, (i < n)%nat -> w i = ((v (n - 1 - i) * w (n - 1)) mod p)%nat).
    { intros q Hq. rewrite last_step by (try lia; intros; lia). f_equal. replace (n - 1 + (n - (n - 1 - q)))%nat with (q + 1 * n)%nat by lia.
      rewrite Nat.mod_add by lia. now rewrite Nat.mod_small. }
    intros Hi Hj E. rewrite (S i Hi), (S j Hj) in E. pose proof (Bw (n - 1)%nat ltac:(lia)) as Bl.
    pose proof (Bv (n - 1 - i)%nat ltac:(lia)). pose proof (Bv (n - 1 - j)%nat ltac:(lia)).
    rewrite (Nat.mul_comm (v (n - 1 - i)%nat)), (Nat.mul_comm (v (n - 1 - j)%nat)) in E.
    apply mod_cancel in E; [|exact Pp|rewrite Nat.mod_small; lia]. rewrite !Nat.mod_small in E by lia.
    apply v_inj in E; lia.
  Qed.
  Lemma w_step j k : (j < n)%nat -> (k < n)%nat -> ((v j * w k) mod p = w ((k + (n - j)) mod n))%nat.
  Proof. intros Hj Hk. apply last_step; auto. intros k' L E. apply w_inj in E; lia. Qed.

  Hypothesis w0 : w 0%nat = 1%nat.
  Lemma v_of_w j : (1 <= j < n)%nat -> v j = w (n - j)%nat.
  Proof.
    intros Hj. pose proof (w_step j 0%nat ltac:(lia) ltac:(lia)) as E. rewrite w0, Nat.mul_1_r in E. pose proof (Bv j ltac:(lia)).
    rewrite Nat.mod_small in E by lia. rewrite E, Nat.add_0_l. f_equal. apply Nat.mod_small. lia.
  Qed.
  Lemma w_mul k : (S k < n)%nat -> ((w 1%nat * w k) mod p = w (S k))%nat.
  Proof.
    intros Hk. replace (w 1%nat) with (v (n - 1)%nat) by (rewrite v_of_w by lia; f_equal; lia).
    rewrite w_step by lia. f_equal. replace (k + (n - (n - 1)))%nat with (S k) by lia. now apply Nat.mod_small.
  Qed.
  Lemma v_mul j : (1 <= j)%nat -> (S j < n)%nat -> ((v 1%nat * v j) mod p = v (S j))%nat.
  Proof.
    intros H1 Hj. rewrite (v_of_w j), (v_of_w (S j)) by lia. rewrite w_step by lia. f_equal.
    replace (n - j + (n - 1))%nat with (n - S j + 1 * n)%nat by lia. rewrite Nat.mod_add by lia. apply Nat.mod_small. lia.
  Qed.
  Lemma w_surj a : (1 <= a <= n)%nat -> exists j, (j < n /\ w j = a)%nat.
  Proof. apply inj_surj; [|apply w_inj]. intros i Hi. pose proof (Bw i Hi). fold n. unfold n in *. lia. Qed.
End Sequences.
