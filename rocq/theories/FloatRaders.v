(** * Rounding errors of RadersAlgorithm *)
From Verif Require Import Lemmas Contract RadersProof NumTheory Residues RealDHT RadersReal.
From Verif Require Export FloatSplit.
From Coq Require Import Reals Lra Lia List Arith Psatz.
Import ListNotations.
Local Open Scope R_scope.

Section Raders.
  Context {V : Type} (Fm : fmt V) (N : Num V) (RN : rounded Fm N).
  Notation u := (fu Fm). Notation tau := (ftau Fm). Notation rho := (frho Fm). Notation tkf := (tkf Fm). Notation tkn := (tkn Fm). Notation ckn := (ckn Fm). Notation ck := (ck Fm). Notation tk := (tk Fm).
  Let Hu : 0 <= u := r_u _ _ RN.
  Let Ht : 0 <= tau := r_tau _ _ RN.
  Variables (l r s : nat).
  Hypothesis Pl : std_prime l.
  Hypothesis l3 : (3 <= l)%nat.
  Hypothesis Or : no_small_order l r.
  Hypothesis Os : no_small_order l s.
  Hypothesis Hrs : ((r * s) mod l = 1)%nat.
  Let n := (l - 1)%nat.
  Hypothesis Us : usz l.
  Variables (fi : list V -> list V) (phi G : R).
  Hypothesis phi1 : 1 <= phi.
  Hypothesis G1 : 1 <= G.
  Hypothesis F : tkf fi n phi G.
  Hypothesis cap : fac u tau 4 2 * phi * (4 * G) <= fhi Fm.

  Let np : (0 < n)%nat.
  Proof. unfold n. lia. Qed.
  Let nR : 1 <= INR n.
  Proof. change 1 with (INR 1). apply le_INR. apply np. Qed.

  (** ** the precomputed table *)
  Let tb := fi (@raders_input V N l s).
  Let xb := dht_spec (@raders_input R (RNum rh) l s).
  Let cap2 : fac u tau 2 2 * phi * (4 * G) <= fhi Fm.
  Proof.
    eapply Rle_trans; [|exact cap]. apply Rmult_le_compat_r; [lra|]. apply Rmult_le_compat_r; [lra|]. apply (fac_mono _ _ RN); lia.
  Qed.
  Let In1 : 0 < / INR n <= 1.
  Proof. split; [apply Rinv_0_lt_compat; lra|]. rewrite <- Rinv_1. apply Rinv_le_contravar; lra. Qed.
  Let lo_n : flo Fm <= 2 * / INR n.
  Proof.
    pose proof (r_lo_small _ _ RN) as S. pose proof (r_lo _ _ RN).
    assert (B : INR n <= 2 ^ 64).
    { rewrite pow_IZR, INR_IZR_INZ. apply IZR_le. change (Z.of_nat 64) with 64%Z. unfold usz in Us. unfold n. lia. }
    assert (flo Fm * INR n <= 1) by nra.
    apply (Rmult_le_reg_r (INR n)); [lra|]. rewrite Rmult_assoc, Rinv_l by lra. lra.
  Qed.
  Lemma input_tk k : (k < n)%nat -> tk (fac u tau 2 2) (2 * / INR n) (nth k (@raders_input V N l s) nzero) (nth k (@raders_input R (RNum rh) l s) 0).
  Proof.
    intros Hk. unfold raders_input. fold n. rewrite !nth_map_seq by auto. cbn [nmul nrecip RNum].
    assert (BI : (pw l s (0 + k) <= 2 * l)%nat).
    { unfold pw. match goal with |- (?x mod _ <= _)%nat => pose proof (Nat.mod_upper_bound x l ltac:(lia)) end. lia. }
    destruct (ckn_dht Fm N RN (pw l s (0 + k)) l ltac:(lia) BI Us) as (P1 & L1 & A1).
    destruct (r_recip _ _ RN n np) as [F2 E2]; [unfold usz, n in *; lia|].
    assert (A2 : ak Fm (1 + tau) (/ INR n) (@nrecip V N n) (/ INR n)).
    { split; auto. split; [lra|]. rewrite Rabs_pos_eq; lra. }
    assert (PP : fac u tau 2 2 = fac u tau 1 1 * (1 + tau) * (1 + u)) by (unfold fac; simpl; ring).
    assert (A : ak Fm (fac u tau 2 2) (2 * / INR n) (@nmul V N (@compute_dht_twiddle V N (pw l s (0 + k)) l) (@nrecip V N n))
                 (@compute_dht_twiddle R (RNum rh) (pw l s (0 + k)) l * / INR n)).
    { rewrite PP. apply (ak_mul _ _ RN); auto; [lra|]. eapply Rle_trans; [|exact cap2].
      assert (1 <= fac u tau 1 1 * (1 + tau)) by nra.
      assert (fac u tau 1 1 * (1 + tau) <= fac u tau 2 2) by (rewrite PP; nra).
      assert (fac u tau 2 2 <= fac u tau 2 2 * phi) by nra.
      apply Rmult_le_compat; lra. }
    split; [apply (fac_1 _ _ RN)|]. split; [exact lo_n|]. split; [apply A|]. intros _. exact A.
  Qed.
  Let ptb1 : 1 <= fac u tau 2 2 * phi.
  Proof. pose proof (fac_1 Fm N RN 2 2). nra. Qed.
  Lemma table_ak k : (k < n)%nat -> ak Fm (fac u tau 2 2 * phi) (2 * G) (nth k tb nzero) (nth k xb 0).
  Proof.
    intros Hk. unfold tb, xb. assert (L1 : length (@raders_input V N l s) = n) by (unfold raders_input; now rewrite map_length, seq_length).
    assert (L2 : length (@raders_input R (RNum rh) l s) = n) by (unfold raders_input; now rewrite map_length, seq_length).
    rewrite nth_dht_spec by lia.
    assert (E : 2 * G = G * rsum n (fun _ => 2 * / INR n)).
    { rewrite rsum_const. field. lra. }
    assert (T : tk (fac u tau 2 2 * phi) (2 * G) (nth k (fi (@raders_input V N l s)) nzero) (dht_at (@raders_input R (RNum rh) l s) k)).
    { rewrite E. apply F; auto; [apply (fac_1 _ _ RN)|]. exact input_tk. }
    destruct T as (_ & _ & _ & T). apply T. pose proof cap2. nra.
  Qed.

  Let ptw := fac u tau 4 2 * phi.
  Let ptw1 : 1 <= ptw.
  Proof. unfold ptw. pose proof (fac_1 Fm N RN 4 2). nra. Qed.
  Let ta := @raders_table V N l tb.
  Let tx := @raders_table R (RNum rh) l xb.
  Lemma tws_ck i : (2 * i <= n)%nat ->
    ck ptw (2 * G) (re (nth i ta (Cplx nzero nzero))) (re (nth i tx (Cplx 0 0))) /\
    ck ptw (2 * G) (im (nth i ta (Cplx nzero nzero))) (im (nth i tx (Cplx 0 0))).
  Proof.
    intros Hi.
    cut (ak Fm ptw (2 * G) (re (nth i ta (Cplx nzero nzero))) (re (nth i tx (Cplx 0 0))) /\
         ak Fm ptw (2 * G) (im (nth i ta (Cplx nzero nzero))) (im (nth i tx (Cplx 0 0)))).
    { intros [A1 A2]. split; (split; [exact ptw1|split; [lra|assumption]]). }
    assert (Hi' : (i < n / 2 + 1)%nat) by (assert (i <= n / 2)%nat by (apply Nat.div_le_lower_bound; lia); lia).
    unfold ta, tx, raders_table. fold n. rewrite !nth_map_seq by auto. rewrite Nat.add_0_l. cbv zeta. cbn [nzero RNum].
    assert (PP : fac u tau 2 2 * phi <= ptw) by (unfold ptw; apply Rmult_le_compat_r; [lra|]; apply (fac_mono _ _ RN); lia).
    assert (Z0 : ak Fm ptw (2 * G) (@nzero V N) 0).
    { destruct (r_zero _ _ RN) as [Fz Ez]. split; auto. rewrite Ez, Rminus_eq_0, Rabs_R0. pose proof ptw1. split; nra. }
    assert (T : forall k, (k < n)%nat -> ak Fm ptw (2 * G) (nth k tb nzero) (nth k xb 0)).
    { intros k Hk. apply (ak_mono Fm (fac u tau 2 2 * phi) _ (2 * G)); try lra. now apply table_ak. }
    destruct (Nat.eqb_spec i 0) as [->|Ni]; [cbn [re im]; auto|].
    destruct (Nat.ltb_spec (2 * i) n); cbn [re im nadd nsub nmul nhalf RNum]; [|split; auto; apply T; lia].
    pose proof (table_ak i ltac:(lia)) as T1. pose proof (table_ak (n - i)%nat ltac:(lia)) as T2.
    assert (E1 : ptw = fac u tau 2 2 * phi * (1 + u) * 1 * (1 + u)) by (unfold ptw, fac; simpl; ring).
    assert (E2 : 2 * G = (2 * G + 2 * G) * / 2) by lra.
    assert (AH : ak Fm 1 (/ 2) (@nhalf V N) (/ 2)).
    { destruct (r_half _ _ RN) as [Fh Eh]. split; auto. rewrite Eh, Rminus_eq_0, Rabs_R0, Rabs_pos_eq; lra. }
    assert (P3 : 1 <= fac u tau 2 2 * phi * (1 + u)) by (pose proof ptb1; nra).
    assert (C3 : fac u tau 2 2 * phi * (1 + u) * 1 * ((2 * G + 2 * G) * / 2) <= fhi Fm).
    { assert (fac u tau 2 2 * phi * (1 + u) <= ptw) by (rewrite E1; nra). fold ptw in cap. rewrite <- E2. nra. }
    assert (C2 : fac u tau 2 2 * phi * (2 * G + 2 * G) <= fhi Fm) by (pose proof cap2; nra).
    pose proof (lo_1 _ _ RN).
    rewrite E1, E2.
    split; (apply (ak_mul _ _ RN); auto; try lra); [now apply (ak_add _ _ RN)|now apply (ak_sub _ _ RN)].
  Qed.

  (** ** a transform *)
  Lemma raders_tkf : tkf (@raders_fun V N l r s ta fi) l (phi * phi * phi * fac u tau 6 2) (4 * INR n * (G * G * G)).
  Proof.
    intros p M a x p1 La Lx T k Hk.
    rewrite <- nth_dht_spec by lia.
    rewrite <- (raders_real rh l r s Pl l3 Or Os Hrs dht_spec (fun y _ => eq_refl) x Lx). fold xb. fold tx.
    set (S' := rsum n (fun j => M (S j))).
    assert (PM : forall j, (j < l)%nat -> 0 <= M j) by (intros; eapply tk_pos; eauto).
    assert (S0 : 0 <= S') by (apply rsum_nonneg; intros; apply PM; unfold n in *; lia).
    assert (ST : rsum l M = M 0%nat + S') by (replace l with (S n) by (unfold n; lia); apply rsum_S_l).
    assert (M0 : 0 <= M 0%nat) by (apply PM; lia).
    pose proof (T 0%nat ltac:(lia)) as T0.
    set (A := fi (@raders_gather V N l r a)). set (A' := dht_spec (@raders_gather R (RNum rh) l r x)).
    destruct (order_distinct l r Pl Or) as [D1 _].
    assert (LA : length (@raders_gather V N l r a) = n) by (unfold raders_gather; now rewrite map_length, seq_length).
    assert (LA' : length (@raders_gather R (RNum rh) l r x) = n) by (unfold raders_gather; now rewrite map_length, seq_length).
    assert (TA : forall j, (j < n)%nat -> tk (p * phi) (G * S') (nth j A nzero) (nth j A' 0)).
    { intros j Hj. unfold A, A', S'. rewrite nth_dht_spec by lia.
      unfold n. rewrite <- (sum_powers l r s Pl l3 Or Hrs x Lx M). fold n.
      apply F; auto. intros i Hi. unfold raders_gather. fold n. rewrite !nth_map_seq by auto. rewrite Nat.add_0_l. apply T.
      apply D1. }
    assert (q1 : 1 <= p * phi) by nra.
    assert (GS : 0 <= G * S') by nra.
    set (m i := if (i =? 0)%nat then M 0%nat + 4 * (G * G * S') else 4 * (G * G * S')).
    set (Q := p * phi * phi * fac u tau 6 2).
    assert (Q1 : 1 <= Q) by (unfold Q; pose proof (fac_1 Fm N RN 6 2); assert (1 <= p * phi * phi) by nra; nra).
    assert (EQ : Q = ptw * (p * phi) * (1 + u) * (1 + u)) by (unfold Q, ptw, fac; simpl; ring).
    assert (U1 : ptw * (p * phi) * (1 + u) <= Q) by (rewrite EQ; assert (1 <= ptw * (p * phi)) by nra; nra).
    assert (U2 : p <= ptw * (p * phi) * (1 + u)).
    { assert (1 <= phi * (1 + u)) by nra. replace (ptw * (p * phi) * (1 + u)) with (p * (ptw * (phi * (1 + u)))) by ring.
      assert (1 <= ptw * (phi * (1 + u))) by nra. nra. }
    set (x0 := nth 0 a nzero) in *. set (x0' := nth 0 x 0) in *.
    assert (TB : forall i, (i < n)%nat -> tk Q (m i) (nth i (@raders_mul V N l ta x0 A) nzero) (nth i (@raders_mul R (RNum rh) l tx x0' A') 0)).
    { intros i Hi. unfold raders_mul, m. fold n. rewrite !nth_map_seq by auto. rewrite Nat.add_0_l. cbv zeta. cbn [nzero nadd nsub nmul RNum].
      destruct (Nat.eqb_spec i 0) as [->|Ni].
      - destruct (tws_ck 0 ltac:(lia)) as [C _]. pose proof (tk_mulc _ _ RN _ _ _ _ _ _ _ _ (TA 0%nat np) C) as P.
        replace (p * phi * ptw * (1 + u)) with (ptw * (p * phi) * (1 + u)) in P by ring.
        rewrite EQ. apply (tk_mono Fm (ptw * (p * phi) * (1 + u) * (1 + u)) _ (G * S' * (2 * G) + M 0%nat)); [lra|lra| |].
        { assert (0 <= G * G * S') by (rewrite Rmult_assoc; nra). nra. }
        apply (tk_add _ _ RN); auto. apply (tk_mono Fm p _ (M 0%nat)); auto; lra.
      - destruct (Nat.ltb_spec (2 * i) n); [|destruct (Nat.eqb_spec (2 * i) n)].
        + destruct (tws_ck i ltac:(lia)) as [C S].
          destruct (twist_tk Fm N RN _ _ _ _ _ _ _ _ _ _ _ _ _ C S (TA i Hi) (TA (n - i)%nat ltac:(lia))) as [P _].
          rewrite EQ. replace (4 * (G * G * S')) with (2 * G * (G * S') + 2 * G * (G * S')) by ring. exact P.
        + destruct (tws_ck i ltac:(lia)) as [C _]. pose proof (tk_mulc _ _ RN _ _ _ _ _ _ _ _ (TA i Hi) C) as P.
          replace (p * phi * ptw * (1 + u)) with (ptw * (p * phi) * (1 + u)) in P by ring.
          apply (tk_mono Fm (ptw * (p * phi) * (1 + u)) _ (G * S' * (2 * G))); auto; [lra|].
          assert (0 <= G * G * S') by (rewrite Rmult_assoc; nra). nra.
        + destruct (tws_ck (n - i) ltac:(lia)) as [C S].
          destruct (twist_tk Fm N RN _ _ _ _ _ _ _ _ _ _ _ _ _ C S (TA i Hi) (TA (n - i)%nat ltac:(lia))) as [_ P].
          rewrite EQ. replace (4 * (G * G * S')) with (2 * G * (G * S') + 2 * G * (G * S')) by ring. exact P. }
    assert (Sm : rsum n m <= M 0%nat + 4 * INR n * (G * G * S')).
    { clear - np. unfold m. replace n with (S (n - 1)) by (pose proof np; lia). rewrite rsum_S_l.
      rewrite (rsum_ext (n - 1) _ (fun _ => 4 * (G * G * S'))) by reflexivity. rewrite rsum_const. simpl (0 =? 0)%nat. cbv iota.
      rewrite S_INR. lra. }
    assert (GG : 1 <= G * G) by nra. assert (GGG : 1 <= G * G * G) by nra.
    assert (LE : G * rsum n m <= 4 * INR n * (G * G * G) * rsum l M).
    { apply (Rle_trans _ (G * (M 0%nat + 4 * INR n * (G * G * S')))); [apply Rmult_le_compat_l; lra|]. rewrite ST.
      assert (G * M 0%nat <= 4 * INR n * (G * G * G) * M 0%nat); [|nra].
      apply Rmult_le_compat_r; auto. assert (G <= G * G * G) by nra. nra. }
    assert (Qphi : Q * phi = p * (phi * phi * phi * fac u tau 6 2)) by (unfold Q; ring).
    rewrite <- Qphi.
    unfold raders_fun. cbv zeta. cbn [nzero nadd RNum]. fold A A' x0 x0'. fold n.
    destruct k as [|k].
    - cbn [nth]. apply (tk_mono Fm (p * phi * (1 + u)) _ (M 0%nat + G * S')).
      + nra.
      + assert (p * phi * (1 + u) <= Q); [|nra]. unfold Q. replace (p * phi * phi * fac u tau 6 2) with (p * phi * (phi * fac u tau 6 2)) by ring.
        apply Rmult_le_compat_l; [lra|]. pose proof (fac_mono Fm N RN 1 0 6 2 ltac:(lia) ltac:(lia)) as FM.
        replace (fac u tau 1 0) with (1 + u) in FM by (unfold fac; simpl; ring). nra.
      + rewrite ST. assert (1 <= 4 * INR n * (G * G * G)) by nra. assert (G <= 4 * INR n * (G * G * G)) by (assert (G <= G * G * G) by nra; nra). nra.
      + apply (tk_add _ _ RN); [|apply TA; apply np]. apply (tk_mono Fm p _ (M 0%nat)); auto; [nra|lra].
    - cbn [nth]. assert (Hk' : (k < n)%nat) by (unfold n; lia). rewrite !nth_map_seq by auto.
      assert (L : (raders_log l s (1 + k)%nat < n)%nat).
      { unfold raders_log. fold n. destruct (find _ _) as [j'|] eqn:E; [|apply np].
        apply find_some in E as [E1 _]. apply in_seq in E1. lia. }
      rewrite nth_dht_spec by (rewrite raders_mul_length; auto).
      apply (tk_mono Fm (Q * phi) _ (G * rsum n m)); auto; [nra|lra|].
      apply F; auto; apply raders_mul_length.
  Qed.
End Raders.
