(** * Errors of RadersAlgorithm in the Euclidean norm *)
From Verif Require Import Lemmas Contract RadersProof NumTheory Residues RealDHT DHTTheory ButterfliesReal RadersReal FloatTree FloatSplit FloatRaders.
From Verif Require Export RmsProof.
From Coq Require Import Reals Lra Lia List Arith Psatz.
Import ListNotations.
Local Open Scope R_scope.

(** ** exact transforms *)
Section Exact.
  Variables (l r s : nat).
  Hypothesis Pl : std_prime l.
  Hypothesis l3 : (3 <= l)%nat.
  Hypothesis Or : no_small_order l r.
  Hypothesis Os : no_small_order l s.
  Hypothesis Hrs : ((r * s) mod l = 1)%nat.
  Let n := (l - 1)%nat.
  Let np : (0 < n)%nat. Proof. unfold n. lia. Qed.
  Let xb := dht_spec (@raders_input R (RNum rh) l s).
  Let tx := @raders_table R (RNum rh) l xb.

  (** the products *)
  Definition midf (A : nat -> R) (i : nat) : R :=
    let t j := nth j tx (Cplx 0 0) in
    if (i =? 0)%nat then A 0%nat * re (t 0%nat)
    else if (2 * i <? n)%nat then re (t i) * A i + im (t i) * A (n - i)%nat
    else if (2 * i =? n)%nat then A i * re (t i)
    else re (t (n - i)%nat) * A i - im (t (n - i)%nat) * A (n - i)%nat.
  Definition first (x0 : R) (i : nat) : R := if (i =? 0)%nat then x0 else 0.
  Lemma mul_mid x0 A i : (i < n)%nat -> nth i (@raders_mul R (RNum rh) l tx x0 A) 0 = midf (fun j => nth j A 0) i + first x0 i.
  Proof.
    intros Hi. unfold raders_mul, midf, first. fold n. rewrite nth_map_seq by auto. rewrite Nat.add_0_l. cbv zeta. cbn [nzero nadd nsub nmul RNum].
    destruct (i =? 0)%nat; [ring|]. destruct (2 * i <? n)%nat; [ring|]. destruct (2 * i =? n)%nat; ring.
  Qed.
  Lemma midf_sub A B i : midf (fun j => A j - B j) i = midf A i - midf B i.
  Proof. unfold midf. cbv zeta. destruct (i =? 0)%nat; [ring|]. destruct (2 * i <? n)%nat; [ring|]. destruct (2 * i =? n)%nat; ring. Qed.
  Lemma midf_ext A B i : (i < n)%nat -> (forall j, (j < n)%nat -> A j = B j) -> midf A i = midf B i.
  Proof.
    intros Hi H. unfold midf. cbv zeta. destruct (Nat.eqb_spec i 0) as [->|]; [now rewrite H by auto|].
    rewrite (H i), (H (n - i)%nat) by lia. reflexivity.
  Qed.

  Lemma order_log t : no_small_order l t -> (forall k, (1 <= k < l)%nat -> (raders_log l t k < n)%nat /\ pw l t (raders_log l t k) = k) /\
    forall j, (j < n)%nat -> raders_log l t (pw l t j) = j.
  Proof.
    intros O. pose proof (order_generates l t Pl O) as G. destruct (order_distinct l t Pl O) as [D1 D2].
    assert (A : forall k, (1 <= k < l)%nat -> (raders_log l t k < n)%nat /\ pw l t (raders_log l t k) = k).
    { intros k Hk. unfold raders_log. fold n. destruct (G k Hk) as (j & Hj & Ej). destruct (find _ _) as [j'|] eqn:E.
      - apply find_some in E as [Hin E]. apply in_seq in Hin. apply Nat.eqb_eq in E. split; auto. lia.
      - exfalso. assert (F := find_none _ _ E j ltac:(apply in_seq; unfold n; lia)). cbv beta in F. apply Nat.eqb_neq in F. auto. }
    split; auto. intros j Hj. destruct (A (pw l t j) (D1 j)) as [B1 B2]. apply D2; auto.
  Qed.
  Let Hsr : ((s * r) mod l = 1)%nat. Proof. now rewrite Nat.mul_comm. Qed.

  Section Input.
    Variable x : list R.
    Hypothesis Lx : length x = l.
    Let A := dhtf n (fun j => nth (pw l r j) x 0).
    Let B i := midf A i + first (nth 0 x 0) i.
    Let X := dhtf l (fun j => nth j x 0).
    Lemma gather_nth k : (k < n)%nat -> nth k (dht_spec (@raders_gather R (RNum rh) l r x)) 0 = A k.
    Proof. exact (gather_dht rh l r dht_spec (fun y _ => eq_refl) x k). Qed.
    Let RR : @raders_fun R (RNum rh) l r s tx dht_spec x = dht_spec x.
    Proof. exact (raders_real rh l r s Pl l3 Or Os Hrs dht_spec (fun y _ => eq_refl) x Lx). Qed.
    Let spec_X k : (k < l)%nat -> nth k (dht_spec x) 0 = X k.
    Proof. intros Hk. rewrite nth_dht_spec by lia. rewrite dht_at_dhtf, Lx. reflexivity. Qed.
    Lemma exact_0 : X 0%nat = nth 0 x 0 + A 0%nat.
    Proof.
      rewrite <- spec_X by lia. rewrite <- RR. unfold raders_fun. cbv zeta. cbn [nth nzero nadd RNum]. now rewrite gather_nth.
    Qed.
    Lemma exact_B i : (i < n)%nat -> nth i (@raders_mul R (RNum rh) l tx (nth 0 x 0) (dht_spec (@raders_gather R (RNum rh) l r x))) 0 = B i.
    Proof. intros Hi. rewrite mul_mid by auto. unfold B. f_equal. apply midf_ext; auto. apply gather_nth. Qed.
    Lemma exact_S k : (1 <= k < l)%nat -> X k = dhtf n B (raders_log l s k).
    Proof.
      intros Hk. rewrite <- spec_X by lia. rewrite <- RR. unfold raders_fun. cbv zeta. destruct k as [|k]; [lia|]. cbn [nth]. fold n.
      rewrite nth_map_seq by (unfold n; lia). cbn [nzero RNum]. change (1 + k)%nat with (S k). destruct (order_log s Os) as [L _].
      rewrite nth_dht_spec by (rewrite raders_mul_length; now apply L). rewrite dht_at_dhtf, raders_mul_length. apply dhtf_ext.
      intros j Hj. now apply exact_B.
    Qed.
    Lemma log_sum (f : nat -> R) : rsum n (fun i => f (raders_log l s (S i))) = rsum n f.
    Proof.
      pose proof (sum_powers l s r Pl l3 Os Hsr x Lx (fun k => f (raders_log l s k))) as E. fold n in E. rewrite <- E.
      apply rsum_ext. intros j Hj. f_equal. now apply (order_log s Os).
    Qed.
    Lemma gather_ss : ss n (fun j => nth (pw l r j) x 0) + nth 0 x 0 * nth 0 x 0 = ss l (fun j => nth j x 0).
    Proof.
      unfold ss. replace l with (S n) at 1 by (unfold n; lia). rewrite rsum_S_l, Rplus_comm. f_equal.
      exact (sum_powers l r s Pl l3 Or Hrs x Lx (fun k => nth k x 0 * nth k x 0)).
    Qed.
    Lemma split_ss (f : nat -> R) : ss l f = f 0%nat * f 0%nat + ss n (fun i => f (S i)).
    Proof. unfold ss. replace l with (S n) at 1 by (unfold n; lia). now rewrite rsum_S_l. Qed.
    Lemma mid_energy : INR n * ss n B <= INR l * ss l (fun j => nth j x 0).
    Proof.
      rewrite <- !ss_dhtf. fold X. rewrite (split_ss X). rewrite (ss_ext n (fun i => X (S i)) (fun i => dhtf n B (raders_log l s (S i)))).
      2:{ intros i Hi. apply exact_S. unfold n in *. lia. }
      unfold ss. rewrite (log_sum (fun j => dhtf n B j * dhtf n B j)). pose proof (sq0 (X 0%nat)). lra.
    Qed.
  End Input.

  Lemma mid_norm A : INR n * INR n * ss n (midf A) <= INR l * ss n A.
  Proof.
    pose proof (INR1 n np) as n1. destruct (order_log r Or) as [L1 L2]. destruct (order_distinct l r Pl Or) as [D1 _].
    pose (x := map (fun k => if (k =? 0)%nat then 0 else / INR n * dhtf n A (raders_log l r k)) (seq 0 l)).
    assert (Lx : length x = l) by (unfold x; now rewrite map_length, seq_length).
    assert (X0 : nth 0 x 0 = 0) by (unfold x; now rewrite nth_map_seq by lia).
    assert (XS : forall j, (j < n)%nat -> nth (pw l r j) x 0 = / INR n * dhtf n A j).
    { intros j Hj. pose proof (D1 j). unfold x. rewrite nth_map_seq by lia. rewrite Nat.add_0_l.
      destruct (Nat.eqb_spec (pw l r j) 0); [lia|]. now rewrite L2. }
    assert (EA : forall k, (k < n)%nat -> dhtf n (fun j => nth (pw l r j) x 0) k = A k).
    { intros k Hk. rewrite (dhtf_ext n _ (fun j => / INR n * dhtf n A j + 0 * 0)) by (intros; rewrite XS by auto; ring).
      rewrite (dhtf_lin n (/ INR n) 0 (dhtf n A) (fun _ => 0)), dhtf_twice by auto. field. lra. }
    pose proof (mid_energy x Lx) as M. rewrite X0 in M.
    rewrite (ss_ext n _ (midf A)) in M.
    2:{ intros i Hi. unfold first. rewrite (midf_ext _ A i Hi EA). destruct (i =? 0)%nat; ring. }
    pose proof (gather_ss x Lx) as G. rewrite X0 in G.
    rewrite (ss_ext n (fun j => nth (pw l r j) x 0) (fun j => / INR n * dhtf n A j)) in G by (intros; now apply XS).
    rewrite ss_scal, ss_dhtf in G. rewrite Rmult_0_l, Rplus_0_r in G. rewrite <- G in M.
    apply (Rmult_le_compat_l (INR n)) in M; [|lra]. rewrite Rmult_assoc. eapply Rle_trans; [exact M|]. right. field. lra.
  Qed.
End Exact.

(** ** with rounding *)
Section Float.
  Context {V : Type} (Fm : fmt V) (N : Num V) (RN : rounded Fm N).
  Notation u := (fu Fm). Notation tau := (ftau Fm). Notation fac := (fac u tau). Notation lo := (flo Fm). Notation hi := (fhi Fm).
  Notation tk := (tk Fm). Notation ck := (ck Fm). Notation va := (va Fm). Notation mx := (mx Fm). Notation sc := (sc Fm). Notation fin := (ffin Fm).
  Let Hu : 0 <= u := r_u _ _ RN.
  Let Hlo : 0 <= lo := r_lo _ _ RN.
  Let Ht : 0 <= tau := r_tau _ _ RN.
  Variables (l r s : nat).
  Hypothesis Pl : std_prime l.
  Hypothesis l3 : (3 <= l)%nat.
  Hypothesis Or : no_small_order l r.
  Hypothesis Os : no_small_order l s.
  Hypothesis Hrs : ((r * s) mod l = 1)%nat.
  Hypothesis Us : usz l.
  Let n := (l - 1)%nat.
  Let np : (0 < n)%nat. Proof. unfold n. lia. Qed.
  Let nR : 1 <= INR n. Proof. apply INR1, np. Qed.
  Variables (fi : list V -> list V) (rr C : R).
  Hypothesis rr1 : 1 <= rr.
  Hypothesis C1 : 1 <= C.
  Hypothesis fi_len : forall y, length y = n -> length (fi y) = n.
  Hypothesis F : rmsf Fm fi n rr C.
  Hypothesis cap_in : 3 * fac 2 2 * C <= hi.
  Hypothesis cap_tw : 6 * fac 4 2 * rr <= hi.

  Let sn := sqrt (INR n).
  Let sl := sqrt (INR l).
  Let snsn : sn * sn = INR n. Proof. apply sqrt_sqrt, pos_INR. Qed.
  Let slsl : sl * sl = INR l. Proof. apply sqrt_sqrt, pos_INR. Qed.
  Let sn1 : 1 <= sn. Proof. apply sqrt1, np. Qed.
  Let snl : sn <= sl. Proof. apply sqrt_le_1_alt, le_INR. unfold n. lia. Qed.
  Let f22 : 1 <= fac 2 2 := fac_1 Fm N RN 2 2.

  (** *** the precomputed table *)
  Let inp := @raders_input V N l s.
  Let inpx := @raders_input R (RNum rh) l s.
  Let tb := fi inp.
  Let xb := dht_spec inpx.
  Let Linp : length inp = n. Proof. unfold inp, raders_input. now rewrite map_length, seq_length. Qed.
  Let Linpx : length inpx = n. Proof. unfold inpx, raders_input. now rewrite map_length, seq_length. Qed.
  Let K := 2 * / INR n.
  Let K0 : 0 < K. Proof. unfold K. apply Rmult_lt_0_compat; [lra|]. apply Rinv_0_lt_compat. lra. Qed.
  Let Kn : INR n * (K * K) = 2 * K. Proof. unfold K. field. lra. Qed.
  Let Kn2 : INR n * K = 2. Proof. unfold K. field. lra. Qed.
  Let input k : (k < n)%nat -> fin (nth k inp nzero) /\ Rabs (va inp k - nth k inpx 0) <= (fac 2 2 - 1) * K /\ Rabs (nth k inpx 0) <= K /\ lo <= K.
  Proof.
    intros Hk. destruct (input_tk Fm N RN l r s l3 Hrs Us rr (3 / 2) rr1 ltac:(lra) ltac:(lra) k Hk) as (_ & L & A & B).
    fold n inp inpx K in L, A, B. destruct B as (B1 & B2 & _).
    { assert (K <= 2) by (rewrite <- Kn2; pose proof K0; nra). pose proof (fac_mono Fm N RN 2 2 4 2 ltac:(lia) ltac:(lia)).
      apply (Rle_trans _ (fac 2 2 * 2)); [apply Rmult_le_compat_l; lra|]. nra. }
    split; auto. split; auto. rewrite va_nth with (N := N) by (now rewrite Linp). exact B2.
  Qed.
  Let inp_fin : Forall fin inp. Proof. apply (fin_all Fm N _ n); auto. intros j Hj. now apply input. Qed.
  Let inp_sc : sn * sc n inp <= 3 * fac 2 2.
  Proof.
    apply sq_le_inv; [lra|]. replace (sn * sc n inp * (sn * sc n inp)) with (sn * sn * (sc n inp * sc n inp)) by ring. rewrite snsn, sc_sum.
    apply (Rle_trans _ (INR n * rsum n (fun _ => 2 * (fac 2 2 * K * (fac 2 2 * K))))).
    - apply Rmult_le_compat_l; [lra|]. apply rsum_le. intros j Hj. destruct (input j Hj) as (_ & A & B & L).
      assert (Rabs (va inp j) <= fac 2 2 * K).
      { replace (va inp j) with (va inp j - nth j inpx 0 + nth j inpx 0) by ring. eapply Rle_trans; [apply Rabs_triang|]. lra. }
      pose proof (abs_sq_le _ _ H). assert (lo * lo <= fac 2 2 * K * (fac 2 2 * K)); [|lra].
      assert (lo <= fac 2 2 * K) by (pose proof K0; nra). apply Rmult_le_compat; auto.
    - rewrite rsum_const. replace (INR n * (INR n * (2 * (fac 2 2 * K * (fac 2 2 * K))))) with (2 * (fac 2 2 * fac 2 2) * ((INR n * K) * (INR n * K))) by ring.
      rewrite Kn2. assert (0 <= fac 2 2 * fac 2 2) by nra. lra.
  Qed.
  Let tb_rms : Forall fin tb /\ nrm n (fun j => va tb j - dhtf n (va inp) j) <= (rr - 1) * (sn * sc n inp).
  Proof. apply F; auto. apply (Rle_trans _ (C * (3 * fac 2 2))); [apply Rmult_le_compat_l; [lra|exact inp_sc]|lra]. Qed.
  Let xb_nth k : (k < n)%nat -> nth k xb 0 = dhtf n (fun j => nth j inpx 0) k.
  Proof. intros. unfold xb. rewrite nth_dht_spec by lia. now rewrite dht_at_dhtf, Linpx. Qed.
  Lemma table_ak k : (k < n)%nat -> ak Fm (fac 2 2 * rr) 3 (nth k tb nzero) (nth k xb 0).
  Proof.
    intros Hk. destruct tb_rms as [Ft E].
    assert (E1 : nrm n (fun j => nth j inpx 0) <= sn * K).
    { apply ss_le_nrm; [pose proof K0; nra|]. apply (Rle_trans _ (ss n (fun _ => K))); [apply ss_le; intros; now apply input|].
      unfold ss. rewrite rsum_const, <- snsn. right. ring. }
    assert (E2 : nrm n (fun j => va inp j - nth j inpx 0) <= sn * ((fac 2 2 - 1) * K)).
    { apply ss_le_nrm; [pose proof K0; assert (0 <= (fac 2 2 - 1) * K) by nra; nra|].
      apply (Rle_trans _ (ss n (fun _ => (fac 2 2 - 1) * K))); [apply ss_le; intros; now apply input|].
      unfold ss. rewrite rsum_const, <- snsn. right. ring. }
    assert (sK : sn * sn * K = 2) by (rewrite snsn; exact Kn2).
    assert (D : forall f, nrm n (dhtf n f) = sn * nrm n f) by (intros; unfold nrm; rewrite ss_dhtf; apply sqrt_mult; [apply pos_INR|apply ss0]).
    assert (EN : forall f, Rabs (f k) <= nrm n f).
    { intros f. apply sq_le_inv; [apply nrm0|]. rewrite nrm_sq, <- Rabs_mult, Rabs_pos_eq by apply sq0. now apply entry_le. }
    split; [|split].
    - apply (fin_nth Fm N); auto. unfold tb. rewrite fi_len; auto.
    - rewrite <- va_nth with (Fm := Fm) by (unfold tb; rewrite fi_len; auto). rewrite xb_nth by auto.
      apply (Rle_trans _ _ _ (EN (fun j => va tb j - dhtf n (fun j => nth j inpx 0) j))).
      rewrite (nrm_ext n _ (fun j => (va tb j - dhtf n (va inp) j) + dhtf n (fun j => va inp j - nth j inpx 0) j)).
      2:{ intros j Hj. rewrite dhtf_sub. ring. }
      eapply Rle_trans; [apply minkowski|]. rewrite D.
      assert ((rr - 1) * (sn * sc n inp) <= (rr - 1) * (3 * fac 2 2)) by (apply Rmult_le_compat_l; [lra|exact inp_sc]).
      assert (sn * nrm n (fun j => va inp j - nth j inpx 0) <= sn * (sn * ((fac 2 2 - 1) * K))) by (apply Rmult_le_compat_l; lra).
      replace (sn * (sn * ((fac 2 2 - 1) * K))) with ((fac 2 2 - 1) * (sn * sn * K)) in * by ring. rewrite sK in *. lra.
    - rewrite xb_nth by auto. apply (Rle_trans _ _ _ (EN _)). rewrite D.
      assert (sn * nrm n (fun j => nth j inpx 0) <= sn * (sn * K)) by (apply Rmult_le_compat_l; lra).
      rewrite <- Rmult_assoc, sK in *. lra.
  Qed.

  Let ptw := fac 4 2 * rr.
  Let ptw1 : 1 <= ptw. Proof. unfold ptw. pose proof (fac_1 Fm N RN 4 2). nra. Qed.
  Let ta := @raders_table V N l tb.
  Let tx := @raders_table R (RNum rh) l xb.
  Lemma tws_ck i : (2 * i <= n)%nat ->
    ck ptw 3 (re (nth i ta (Cplx nzero nzero))) (re (nth i tx (Cplx 0 0))) /\
    ck ptw 3 (im (nth i ta (Cplx nzero nzero))) (im (nth i tx (Cplx 0 0))).
  Proof.
    intros Hi.
    cut (ak Fm ptw 3 (re (nth i ta (Cplx nzero nzero))) (re (nth i tx (Cplx 0 0))) /\
         ak Fm ptw 3 (im (nth i ta (Cplx nzero nzero))) (im (nth i tx (Cplx 0 0)))).
    { intros [A1 A2]. split; (split; [exact ptw1|split; [lra|assumption]]). }
    assert (Hi' : (i < n / 2 + 1)%nat) by (assert (i <= n / 2)%nat by (apply Nat.div_le_lower_bound; lia); lia).
    unfold ta, tx, raders_table. fold n. rewrite !nth_map_seq by auto. rewrite Nat.add_0_l. cbv zeta. cbn [nzero RNum].
    assert (PP : fac 2 2 * rr <= ptw) by (unfold ptw; apply Rmult_le_compat_r; [lra|]; apply (fac_mono _ _ RN); lia).
    assert (P22 : 1 <= fac 2 2 * rr) by nra.
    assert (Z0 : ak Fm ptw 3 (@nzero V N) 0).
    { destruct (r_zero _ _ RN) as [Fz Ez]. split; auto. rewrite Ez, Rminus_eq_0, Rabs_R0. pose proof ptw1. split; nra. }
    assert (T : forall k, (k < n)%nat -> ak Fm ptw 3 (nth k tb nzero) (nth k xb 0)).
    { intros k Hk. apply (ak_mono Fm (fac 2 2 * rr) _ 3); try lra. now apply table_ak. }
    destruct (Nat.eqb_spec i 0) as [->|Ni]; [cbn [re im]; auto|].
    destruct (Nat.ltb_spec (2 * i) n); cbn [re im nadd nsub nmul nhalf RNum]; [|split; auto; apply T; lia].
    pose proof (table_ak i ltac:(lia)) as T1. pose proof (table_ak (n - i)%nat ltac:(lia)) as T2.
    assert (E1 : ptw = fac 2 2 * rr * (1 + u) * 1 * (1 + u)) by (unfold ptw, FloatProof.fac; simpl; ring).
    assert (E2 : 3 = (3 + 3) * / 2) by lra.
    assert (AH : ak Fm 1 (/ 2) (@nhalf V N) (/ 2)).
    { destruct (r_half _ _ RN) as [Fh Eh]. split; auto. rewrite Eh, Rminus_eq_0, Rabs_R0, Rabs_pos_eq; lra. }
    assert (P3 : 1 <= fac 2 2 * rr * (1 + u)) by nra.
    assert (C3 : fac 2 2 * rr * (1 + u) * 1 * ((3 + 3) * / 2) <= hi).
    { assert (fac 2 2 * rr * (1 + u) <= ptw) by (rewrite E1; nra). rewrite <- E2. unfold ptw in *. nra. }
    assert (C2 : fac 2 2 * rr * (3 + 3) <= hi) by (unfold ptw in *; nra).
    pose proof (lo_1 _ _ RN).
    rewrite E1, E2.
    split; (apply (ak_mul _ _ RN); auto; try lra); [now apply (ak_add _ _ RN)|now apply (ak_sub _ _ RN)].
  Qed.

  (** *** a transform *)
  Let raders_mid (l : nat) (rr Q : R) : R := (Q - 1) * (6 * rr * sqrt (INR l) + 1) + (rr - 1).
  Let Q := fac 6 2 * rr.
  Let Q1 : 1 <= Q. Proof. unfold Q. pose proof (fac_1 Fm N RN 6 2). nra. Qed.
  Let EQ : Q = ptw * 1 * (1 + u) * (1 + u). Proof. unfold Q, ptw, FloatProof.fac. simpl. ring. Qed.
  Let kap := raders_mid l rr Q.
  Let kap0 : 0 <= kap.
  Proof. unfold kap, raders_mid. fold sl. assert (0 <= (Q - 1) * (6 * rr * sl + 1)); [|lra]. apply Rmult_le_pos; [lra|]. nra. Qed.

  Section Input.
    Variable a : list V.
    Hypothesis La : length a = l.
    Hypothesis Fa : Forall fin a.
    Let S := sc l a.
    Hypothesis cap_mul : 6 * rr * Q * (sl * S) <= hi.
    Hypothesis cap_fi : C * (1 + kap) * (sl * S) <= hi.
    Let S0 : 0 <= S. Proof. apply sc0. Qed.
    Let slS : 0 <= sl * S. Proof. apply Rmult_le_pos; lra. Qed.
    Let x := map (fval Fm) a.
    Let Lx : length x = l. Proof. unfold x. now rewrite map_length. Qed.
    Let g := @raders_gather V N l r a.
    Let Lg : length g = n. Proof. unfold g, raders_gather. now rewrite map_length, seq_length. Qed.
    Let pwl j : (pw l r j < l)%nat. Proof. destruct (order_distinct l r Pl Or) as [D _]. apply D. Qed.
    Let gN j : (j < n)%nat -> nth j g nzero = nth (pw l r j) a nzero.
    Proof. intros Hj. unfold g, raders_gather. fold n. rewrite nth_map_seq by auto. now rewrite Nat.add_0_l. Qed.
    Let gV j : (j < n)%nat -> va g j = nth (pw l r j) x 0.
    Proof. intros Hj. rewrite va_nth with (N := N) by lia. rewrite gN by auto. rewrite <- va_nth with (Fm := Fm) by (rewrite La; apply pwl). reflexivity. Qed.
    Let Fg : Forall fin g.
    Proof. apply (fin_all Fm N _ n); auto. intros j Hj. rewrite gN by auto. apply (fin_nth Fm N); auto. rewrite La. apply pwl. Qed.
    Let v0 := nth 0 a nzero.
    Let x0 := nth 0 x 0.
    Let x0E : x0 = va a 0. Proof. reflexivity. Qed.
    Let INRl : INR l = INR n + 1. Proof. unfold n. rewrite minus_INR by lia. simpl. lra. Qed.
    Let scg : sc n g * sc n g + (x0 * x0 + lo * lo) = S * S.
    Proof.
      unfold S. rewrite !sc_sq, (ss_ext n (va g) _ gV), INRl.
      pose proof (gather_ss l r s Pl l3 Or Hrs x Lx) as G. fold n x0 in G. change (fun j => nth j x 0) with (va a) in G. lra.
    Qed.
    Let scg_le : sc n g <= S.
    Proof. apply sq_le_inv; auto. rewrite <- scg. pose proof (sq0 x0). pose proof (sq0 lo). lra. Qed.
    Let mx0_le : mx a 0%nat <= S.
    Proof. apply sq_le_inv; auto. rewrite <- scg. pose proof (mx_sq Fm a 0). rewrite <- x0E in *. pose proof (sq0 (sc n g)). lra. Qed.

    Let A := fi g.
    Let Ax := dhtf n (fun j => nth (pw l r j) x 0).
    Let LA : length A = n. Proof. unfold A. auto. Qed.
    Let AF : Forall fin A /\ nrm n (fun j => va A j - Ax j) <= (rr - 1) * (sn * S).
    Proof.
      assert (sn * sc n g <= sn * S) by (apply Rmult_le_compat_l; lra).
      destruct (F g Lg Fg) as [F1 F2].
      - apply (Rle_trans _ (C * (1 + kap) * (sl * S))); auto. fold sn. rewrite Rmult_assoc. apply Rmult_le_compat_l; [lra|].
        pose proof (sc0 Fm n g). assert (sn * S <= sl * S) by (apply Rmult_le_compat_r; lra). pose proof kap0. nra.
      - split; auto. fold sn in F2. apply (Rle_trans _ ((rr - 1) * (sn * sc n g))); [|apply Rmult_le_compat_l; lra].
        rewrite (nrm_ext n (fun j => va A j - Ax j) (fun j => va (fi g) j - dhtf n (va g) j)); [exact F2|].
        intros j Hj. unfold A, Ax. f_equal. symmetry. apply dhtf_ext. exact gV.
    Qed.
    Let Asc : sc n A <= rr * (sn * S).
    Proof.
      unfold RmsProof.sc at 1. rewrite (ss_ext _ (va A) (fun j => Ax j + (va A j - Ax j))) by (intros; ring).
      eapply Rle_trans; [apply triangle_plus, Klo|]. destruct AF as [_ AE].
      assert (sqrt (ss n Ax + INR n * (lo * lo)) <= sn * S); [|lra].
      apply sqrt_le_of; [nra|]. replace (sn * S * (sn * S)) with (sn * sn * (S * S)) by ring. rewrite snsn, <- scg, sc_sq, (ss_ext n (va g) _ gV).
      unfold Ax. rewrite ss_dhtf. pose proof (Klo Fm n). pose proof (sq0 x0). pose proof (sq0 lo).
      set (q := ss n (fun j => nth (pw l r j) x 0)) in *.
      assert (INR n * (q + INR n * (lo * lo) + (x0 * x0 + lo * lo)) = INR n * q + INR n * (lo * lo) + INR n * (INR n * (lo * lo) + x0 * x0)) by ring.
      assert (0 <= INR n * (INR n * (lo * lo) + x0 * x0)) by (apply Rmult_le_pos; lra). lra.
    Qed.
    Let Amx j : (j < n)%nat -> mx A j <= rr * (sn * S).
    Proof.
      intros Hj. eapply Rle_trans; [|exact Asc]. apply sq_le_inv; [apply sc0|]. eapply Rle_trans; [|apply ss_mx]. now apply (entry_le n (mx A)).
    Qed.
    Let rsn : rr * (sn * S) <= rr * (sl * S).
    Proof. apply Rmult_le_compat_l; [lra|]. apply Rmult_le_compat_r; lra. Qed.

    (** the products *)
    Let M := @raders_mul V N l ta v0 A.
    Let LM : length M = n. Proof. unfold M. apply raders_mul_length. Qed.
    Let m i := if (i =? 0)%nat then 3 * mx A 0%nat + mx a 0%nat else 3 * mx A i + 3 * mx A (n - i)%nat.
    Let Mt i : (i < n)%nat -> tk Q (m i) (nth i M nzero) (midf l s (va A) i + first x0 i).
    Proof.
      intros Hi. rewrite <- mul_mid with (A := map (fval Fm) A) by auto. fold xb. fold inpx xb tx.
      assert (TA : forall j, (j < n)%nat -> tk 1 (mx A j) (nth j A nzero) (nth j (map (fval Fm) A) 0)) by (intros j Hj; apply (mx_tk Fm N); [apply AF|lia]).
      assert (T0 : tk 1 (mx a 0%nat) v0 x0) by (apply (mx_tk Fm N); auto; lia).
      assert (U1 : ptw * 1 * (1 + u) <= Q) by (rewrite EQ; assert (1 <= ptw * 1) by lra; nra).
      pose proof (mx0 Fm) as MP. unfold M, raders_mul, m. fold n. rewrite !nth_map_seq by auto. rewrite Nat.add_0_l. cbv zeta. cbn [nzero nadd nsub nmul RNum].
      destruct (Nat.eqb_spec i 0) as [->|Ni].
      - destruct (tws_ck 0 ltac:(lia)) as [Ck _]. pose proof (tk_mulc _ _ RN _ _ _ _ _ _ _ _ (TA 0%nat np) Ck) as P.
        replace (1 * ptw * (1 + u)) with (ptw * 1 * (1 + u)) in P by ring. replace (3 * mx A 0%nat) with (mx A 0%nat * 3) by ring.
        rewrite EQ. apply (tk_add _ _ RN); auto. apply (tk_mono Fm 1 _ (mx a 0%nat)); auto; try lra. pose proof ptw1. nra.
      - pose proof (MP A i). pose proof (MP A (n - i)%nat).
        destruct (Nat.ltb_spec (2 * i) n); [|destruct (Nat.eqb_spec (2 * i) n)].
        + destruct (tws_ck i ltac:(lia)) as [Ck Sk].
          destruct (twist_tk Fm N RN _ _ _ _ _ _ _ _ _ _ _ _ _ Ck Sk (TA i Hi) (TA (n - i)%nat ltac:(lia))) as [P _].
          rewrite EQ. exact P.
        + destruct (tws_ck i ltac:(lia)) as [Ck _]. pose proof (tk_mulc _ _ RN _ _ _ _ _ _ _ _ (TA i Hi) Ck) as P.
          replace (1 * ptw * (1 + u)) with (ptw * 1 * (1 + u)) in P by ring.
          apply (tk_mono Fm (ptw * 1 * (1 + u)) _ (mx A i * 3)); auto; [pose proof ptw1; nra|lra].
        + destruct (tws_ck (n - i) ltac:(lia)) as [Ck Sk].
          destruct (twist_tk Fm N RN _ _ _ _ _ _ _ _ _ _ _ _ _ Ck Sk (TA i Hi) (TA (n - i)%nat ltac:(lia))) as [_ P].
          rewrite EQ. exact P.
    Qed.
    Let m_cap i : (i < n)%nat -> Q * m i <= hi.
    Proof.
      intros Hi. assert (m i <= 6 * (rr * (sl * S))).
      { unfold m. destruct (Nat.eqb_spec i 0) as [->|Ni].
        - pose proof (Amx 0%nat np). assert (S <= rr * (sl * S)) by (assert (1 <= rr * sl) by nra; rewrite <- Rmult_assoc; nra). lra.
        - pose proof (Amx i Hi). pose proof (Amx (n - i)%nat ltac:(lia)). lra. }
      eapply Rle_trans; [|exact cap_mul]. apply (Rle_trans _ (Q * (6 * (rr * (sl * S))))); [apply Rmult_le_compat_l; lra|]. right. ring.
    Qed.
    Let M_ak i : (i < n)%nat -> fin (nth i M nzero) /\ Rabs (va M i - (midf l s (va A) i + first x0 i)) <= (Q - 1) * m i.
    Proof.
      intros Hi. destruct (Mt i Hi) as (_ & _ & _ & B). destruct (B (m_cap i Hi)) as (B1 & B2 & _). split; auto.
      rewrite va_nth with (N := N) by lia. exact B2.
    Qed.
    Let MF : Forall fin M. Proof. apply (fin_all Fm N _ n); auto. intros. now apply M_ak. Qed.
    Let m_nrm : nrm n m <= 6 * sc n A + S.
    Proof.
      pose proof (mx0 Fm) as MP.
      apply (Rle_trans _ (nrm n (fun i => (3 * mx A i + 3 * mx A (mir n i)) + first (mx a 0%nat) i))).
      - apply nrm_le. intros i Hi. unfold m, first, mir. pose proof (MP A i). pose proof (MP A (n - i)%nat). pose proof (MP A 0%nat). pose proof (MP a 0%nat).
        destruct (Nat.eqb_spec i 0) as [->|Ni]; rewrite Rabs_pos_eq; lra.
      - eapply Rle_trans; [apply minkowski|].
        assert (E1 : nrm n (fun i => 3 * mx A i + 3 * mx A (mir n i)) <= 6 * sc n A).
        { eapply Rle_trans; [apply minkowski|]. rewrite !nrm_scal by lra.
          assert (nrm n (fun j => mx A (mir n j)) = nrm n (mx A)) as -> by (unfold nrm, ss; f_equal; apply (rsum_mir n (fun i => mx A i * mx A i))).
          pose proof (nrm_mx Fm n A). lra. }
        assert (E2 : nrm n (first (mx a 0%nat)) <= S); [|lra].
        apply ss_le_nrm; auto. unfold ss. replace n with (Datatypes.S (n - 1)) by (pose proof np; lia). rewrite rsum_S_l. unfold first at 1 2. simpl (0 =? 0)%nat. cbv iota.
        rewrite (rsum_ext _ _ (fun _ => 0)) by (intros; unfold first; simpl; ring). rewrite rsum_const.
        pose proof (MP a 0%nat). assert (mx a 0%nat * mx a 0%nat <= S * S) by (apply Rmult_le_compat; auto). lra.
    Qed.
    Let Bx i := midf l s Ax i + first x0 i.
    Let Merr : nrm n (fun i => va M i - Bx i) * sn <= kap * (sl * S).
    Proof.
      rewrite (nrm_ext n _ (fun i => (va M i - (midf l s (va A) i + first x0 i)) + midf l s (fun j => va A j - Ax j) i)).
      2:{ intros i Hi. rewrite midf_sub. unfold Bx. ring. }
      assert (E1 : nrm n (fun i => va M i - (midf l s (va A) i + first x0 i)) <= (Q - 1) * (6 * sc n A + S)).
      { apply (Rle_trans _ (nrm n (fun i => (Q - 1) * m i))); [apply nrm_le; intros; now apply M_ak|]. rewrite nrm_scal by lra.
        apply Rmult_le_compat_l; [lra|exact m_nrm]. }
      assert (E2 : nrm n (midf l s (fun j => va A j - Ax j)) * sn <= (rr - 1) * (sl * S)).
      { destruct AF as [_ AE]. pose proof (mid_norm l r s Pl l3 Or Os Hrs (fun j => va A j - Ax j)) as MN. fold n in MN.
        set (e := nrm n (fun j => va A j - Ax j)) in *. set (e' := nrm n (midf l s (fun j => va A j - Ax j))) in *.
        assert (I : INR n * e' <= sl * e).
        { apply sq_le_inv; [apply Rmult_le_pos; [lra|apply nrm0]|]. replace (INR n * e' * (INR n * e')) with (INR n * INR n * (e' * e')) by ring.
          replace (sl * e * (sl * e)) with (sl * sl * (e * e)) by ring. unfold e, e'. rewrite !nrm_sq, slsl. exact MN. }
        apply (Rmult_le_reg_l sn); [lra|]. replace (sn * (e' * sn)) with (sn * sn * e') by ring. rewrite snsn. eapply Rle_trans; [exact I|].
        apply (Rle_trans _ (sl * ((rr - 1) * (sn * S)))); [apply Rmult_le_compat_l; lra|]. right. ring. }
      pose proof (minkowski n (fun i => va M i - (midf l s (va A) i + first x0 i)) (midf l s (fun j => va A j - Ax j))) as MK.
      apply (Rle_trans _ ((Q - 1) * (6 * sc n A + S) * sn + (rr - 1) * (sl * S))).
      - eapply Rle_trans; [apply Rmult_le_compat_r; [lra|exact MK]|]. rewrite Rmult_plus_distr_r. apply Rplus_le_compat; auto.
        apply Rmult_le_compat_r; lra.
      - unfold kap, raders_mid. fold sl. rewrite Rmult_plus_distr_r. apply Rplus_le_compat_r.
        rewrite !Rmult_assoc. apply Rmult_le_compat_l; [lra|].
        assert (sc n A * sn <= rr * (sl * S) * sl).
        { apply Rmult_le_compat; try lra. apply sc0. }
        assert (S * sn <= sl * S) by nra. nra.
    Qed.
    Let Bsc : sqrt (ss n Bx + INR n * (lo * lo)) * sn <= sl * S.
    Proof.
      apply sq_le_inv; auto. pose proof (ss0 n Bx). pose proof (Klo Fm n).
      set (q := sqrt (ss n Bx + INR n * (lo * lo))). replace (q * sn * (q * sn)) with (q * q * (sn * sn)) by ring.
      unfold q. rewrite sqrt_sqrt by lra. replace (sl * S * (sl * S)) with (sl * sl * (S * S)) by ring. rewrite snsn, slsl. unfold S. rewrite sc_sq.
      pose proof (mid_energy l r s Pl l3 Or Os Hrs x Lx) as ME. fold n Ax x0 in ME. change (fun i => midf l s Ax i + first x0 i) with Bx in ME.
      change (fun j => nth j x 0) with (va a) in ME. pose proof (sq0 lo). rewrite INRl in *. set (w := ss l (va a)) in *. nra.
    Qed.
    Let Msc : sc n M * sn <= (1 + kap) * (sl * S).
    Proof.
      unfold RmsProof.sc at 1. rewrite (ss_ext _ (va M) (fun j => Bx j + (va M j - Bx j))) by (intros; ring).
      apply (Rle_trans _ ((sqrt (ss n Bx + INR n * (lo * lo)) + nrm n (fun j => va M j - Bx j)) * sn)).
      - apply Rmult_le_compat_r; [lra|]. apply triangle_plus, Klo.
      - rewrite Rmult_plus_distr_r. pose proof Bsc. pose proof Merr. lra.
    Qed.

    (** the second inner transform *)
    Let E := fi M.
    Let LE : length E = n. Proof. unfold E. auto. Qed.
    Let EF : Forall fin E /\ nrm n (fun j => va E j - dhtf n Bx j) <= (rr * (1 + kap) - 1) * (sl * S).
    Proof.
      destruct (F M LM MF) as [F1 F2].
      - eapply Rle_trans; [|exact cap_fi]. fold sn. rewrite Rmult_assoc. apply Rmult_le_compat_l; [lra|]. rewrite Rmult_comm. exact Msc.
      - split; auto. rewrite (nrm_ext n _ (fun j => (va E j - dhtf n (va M) j) + dhtf n (fun i => va M i - Bx i) j)).
        2:{ intros j Hj. rewrite dhtf_sub. ring. }
        eapply Rle_trans; [apply minkowski|].
        assert (nrm n (dhtf n (fun i => va M i - Bx i)) = nrm n (fun i => va M i - Bx i) * sn) as ->.
        { unfold nrm. rewrite ss_dhtf, Rmult_comm. apply sqrt_mult; [apply ss0|apply pos_INR]. }
        fold sn in F2. rewrite (Rmult_comm sn) in F2. fold E in F2.
        assert ((rr - 1) * (sc n M * sn) <= (rr - 1) * ((1 + kap) * (sl * S))) by (apply Rmult_le_compat_l; [lra|exact Msc]).
        pose proof Merr. lra.
    Qed.
    Let out := @raders_fun V N l r s ta fi a.
    Let out0 : fin (nth 0 out nzero) /\ Rabs (va out 0 - dhtf l (va a) 0%nat) <= (rr * (1 + kap) - 1) * (sl * S).
    Proof.
      assert (T : tk (1 * (1 + u)) (mx a 0%nat + mx A 0%nat) (nth 0 out nzero) (x0 + va A 0)).
      { unfold out, raders_fun. cbv zeta. cbn [nth]. apply (tk_add _ _ RN); apply (mx_tk Fm N); auto; try lia. apply AF. }
      pose proof (Amx 0%nat np) as MA. assert (uQ : 1 + u <= Q).
      { rewrite EQ. pose proof ptw1. assert (1 <= ptw * 1 * (1 + u)) by nra. nra. }
      assert (Sl : S <= sl * S) by nra. assert (Sr : sl * S <= rr * (sl * S)) by nra.
      assert (Mm : mx a 0%nat + mx A 0%nat <= S + rr * (sn * S)) by lra.
      destruct T as (_ & _ & _ & T). destruct T as (T1 & T2 & _).
      { apply (Rle_trans _ (Q * (2 * (rr * (sl * S))))).
        - apply Rmult_le_compat; try lra. apply Rplus_le_le_0_compat; apply (mx0 Fm).
        - eapply Rle_trans; [|exact cap_mul]. assert (0 <= Q * (rr * (sl * S))) by (apply Rmult_le_pos; lra). lra. }
      split; auto. pose proof (exact_0 l r s Pl l3 Or Os Hrs x Lx) as EX. fold n Ax x0 in EX. change (fun j => nth j x 0) with (va a) in EX. rewrite EX.
      rewrite va_nth with (N := N) by (unfold out, raders_fun; cbn [length]; lia).
      replace (fval Fm (nth 0 out nzero) - (x0 + Ax 0%nat)) with ((fval Fm (nth 0 out nzero) - (x0 + va A 0)) + (va A 0 - Ax 0%nat)) by ring.
      eapply Rle_trans; [apply Rabs_triang|]. destruct AF as [_ AE].
      assert (E1 : Rabs (va A 0 - Ax 0%nat) <= (rr - 1) * (sl * S)).
      { apply (Rle_trans _ ((rr - 1) * (sn * S))); [|apply Rmult_le_compat_l; [lra|]; apply Rmult_le_compat_r; lra].
        eapply Rle_trans; [|exact AE]. apply sq_le_inv; [apply nrm0|]. rewrite nrm_sq, <- Rabs_mult, Rabs_pos_eq by apply sq0.
        apply (entry_le n (fun j => va A j - Ax j) 0%nat np). }
      assert (E2 : Rabs (fval Fm (nth 0 out nzero) - (x0 + va A 0)) <= (Q - 1) * (2 * (rr * (sl * S)))).
      { eapply Rle_trans; [exact T2|]. apply Rmult_le_compat; try lra. apply Rplus_le_le_0_compat; apply (mx0 Fm). }
      assert (E3 : (Q - 1) * (2 * (rr * (sl * S))) <= rr * kap * (sl * S)).
      { replace ((Q - 1) * (2 * (rr * (sl * S)))) with ((Q - 1) * (2 * rr) * (sl * S)) by ring. apply Rmult_le_compat_r; auto.
        unfold kap, raders_mid. fold sl. assert ((Q - 1) * (2 * rr) <= (Q - 1) * (6 * rr * sl + 1)) by (apply Rmult_le_compat_l; [lra|]; nra).
        assert (0 <= (Q - 1) * (6 * rr * sl + 1)) by (apply Rmult_le_pos; [lra|]; nra). nra. }
      lra.
    Qed.
    Let outS k : (k < n)%nat -> va out (Datatypes.S k) = va E (raders_log l s (Datatypes.S k)).
    Proof.
      intros Hk. destruct (order_log l r s Pl l3 Hrs s Os) as [L _].
      rewrite !va_nth with (N := N); [| |unfold out, raders_fun; cbn [length]; rewrite map_length, seq_length; fold n; lia].
      - unfold out, raders_fun. cbv zeta. cbn [nth]. fold n. rewrite nth_map_seq by auto. reflexivity.
      - rewrite LE. apply L. unfold n in *. lia.
    Qed.
    Lemma raders_out : Forall fin out /\ nrm l (fun j => va out j - dhtf l (va a) j) <= (1 + 3 / 2 * (rr * (1 + kap) - 1) - 1) * (sl * S).
    Proof.
      destruct out0 as [O1 O2], EF as [E1 E2]. destruct (order_log l r s Pl l3 Hrs s Os) as [L _].
      assert (Lo : length out = l) by (unfold out, raders_fun; cbn [length]; rewrite map_length, seq_length; lia).
      set (D := (rr * (1 + kap) - 1) * (sl * S)) in *.
      assert (D0 : 0 <= D) by (eapply Rle_trans; [|exact E2]; apply nrm0).
      split.
      - apply (fin_all Fm N _ l); auto. intros [|k] Hk; auto.
        assert (Hk' : (k < n)%nat) by (unfold n; lia).
        unfold out, raders_fun. cbv zeta. cbn [nth]. fold n. rewrite nth_map_seq by auto. apply (fin_nth Fm N E); [exact E1|]. rewrite LE. apply L. lia.
      - replace ((1 + 3 / 2 * (rr * (1 + kap) - 1) - 1) * (sl * S)) with (3 / 2 * D) by (unfold D; field).
        apply ss_le_nrm; [lra|]. rewrite (split_ss l r s l3 Hrs x Lx). fold n.
        rewrite (ss_ext n _ (fun i => va E (raders_log l s (Datatypes.S i)) - dhtf n Bx (raders_log l s (Datatypes.S i)))).
        2:{ intros i Hi. rewrite outS by auto. f_equal. apply (exact_S l r s Pl l3 Or Os Hrs x Lx). unfold n in *. lia. }
        pose proof (log_sum l r s Pl l3 Os Hrs x Lx (fun j => (va E j - dhtf n Bx j) * (va E j - dhtf n Bx j))) as LS.
        fold n in LS. cbv beta in LS. unfold ss. rewrite LS.
        fold n. change (rsum n (fun j => (va E j - dhtf n Bx j) * (va E j - dhtf n Bx j))) with (ss n (fun j => va E j - dhtf n Bx j)).
        rewrite <- nrm_sq. pose proof (nrm0 n (fun j => va E j - dhtf n Bx j)).
        assert (nrm n (fun j => va E j - dhtf n Bx j) * nrm n (fun j => va E j - dhtf n Bx j) <= D * D) by (apply Rmult_le_compat; auto).
        pose proof (abs_sq_le _ _ O2). pose proof (sq0 D). lra.
    Qed.
  End Input.
  Lemma raders_rmsf : rmsf Fm (@raders_fun V N l r s ta fi) l (1 + 3 / 2 * (rr * stage_rader u tau l rr - 1))
    (Rmax (6 * rr * rader_products u tau rr) (C * stage_rader u tau l rr)).
  Proof.
    assert (rader_products u tau rr = Q) as EQ' by reflexivity.
    assert (stage_rader u tau l rr = 1 + kap) as -> by (unfold stage_rader, kap, raders_mid; rewrite EQ'; ring). rewrite EQ'.
    intros a La Fa Hc. fold sl in Hc |- *.
    assert (0 <= sl * sc l a) by (apply Rmult_le_pos; [lra|apply sc0]).
    apply raders_out; auto; (eapply Rle_trans; [|exact Hc]); apply Rmult_le_compat_r; auto; [apply Rmax_l|apply Rmax_r].
  Qed.
  Lemma stage_rader1 : 1 <= stage_rader u tau l rr /\ 1 <= rader_products u tau rr.
  Proof.
    assert (rader_products u tau rr = Q) as EQ' by reflexivity. split; [|rewrite EQ'; exact Q1].
    unfold stage_rader. rewrite EQ'. pose proof kap0. unfold kap, raders_mid in *. lra.
  Qed.
End Float.
