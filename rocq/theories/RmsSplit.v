(** * Root-mean-square errors of SplitRadix *)
From Verif Require Import Lemmas Contract SplitRadixProof RealDHT DHTTheory SplitReal FloatTree FloatMixed FloatSplit.
From Verif Require Export RmsProof.
From Coq Require Import Reals Lra Lia List Arith Psatz.
Import ListNotations.
Local Open Scope R_scope.

Section Split.
  Context {V : Type} (Fm : fmt V) (N : Num V) (RN : rounded Fm N).
  Notation u := (fu Fm). Notation tau := (ftau Fm). Notation lo := (flo Fm). Notation hi := (fhi Fm).
  Notation tk := (tk Fm). Notation tkn := (tkn Fm). Notation val := (fval Fm). Notation fin := (ffin Fm). Notation fac := (fac u tau).
  Notation va := (va Fm). Notation mx := (mx Fm). Notation sc := (sc Fm).
  Let Hu : 0 <= u := r_u _ _ RN.
  Let Ht : 0 <= tau := r_tau _ _ RN.
  Let Hlo : 0 <= lo := r_lo _ _ RN.
  Variable q : nat.
  Hypothesis qp : (0 < q)%nat.

  (** sums over the interleaved output *)
  Lemma inter_sum (F E O1 O3 : nat -> R) :
    (forall i, (i < q)%nat -> F (4 * i + 0)%nat = E (i * 2)%nat /\ F (4 * i + 1)%nat = O1 i /\ F (4 * i + 2)%nat = E (i * 2 + 1)%nat /\ F (4 * i + 3)%nat = O3 i) ->
    rsum (q * 4) F = rsum (q * 2) E + rsum q O1 + rsum q O3.
  Proof.
    intros H. rewrite (Nat.mul_comm q 4), (Nat.mul_comm q 2), !rsum_mul, <- !rsum_add. apply rsum_ext. intros i Hi.
    destruct (H i Hi) as (H0 & H1 & H2 & H3). rewrite (Nat.mul_comm i 4). cbn [rsum]. rewrite H0, H1, H2, H3, Nat.add_0_r. ring.
  Qed.
  (** one sequence from the three, weighted *)
  Definition comb (E O1 O3 : nat -> R) (k : nat) : R :=
    if (k <? q * 2)%nat then sqrt (INR (q * 2)) * E k else if (k <? q * 3)%nat then sqrt (INR q) * O1 (k - q * 2)%nat else sqrt (INR q) * O3 (k - q * 3)%nat.
  Lemma ss_comb E O1 O3 : ss (q * 4) (comb E O1 O3) = INR (q * 2) * ss (q * 2) E + INR q * ss q O1 + INR q * ss q O3.
  Proof.
    unfold ss. replace (q * 4)%nat with (q * 2 + (q + q))%nat by lia. rewrite !rsum_app, <- !rsum_scal, Rplus_assoc.
    pose proof (sqrt_sqrt _ (pos_INR (q * 2))) as S2. pose proof (sqrt_sqrt _ (pos_INR q)) as S1.
    f_equal; [|f_equal]; apply rsum_ext; intros i Hi; unfold comb.
    - destruct (Nat.ltb_spec i (q * 2)); [|lia]. rewrite <- S2 at 3. ring.
    - destruct (Nat.ltb_spec (q * 2 + i) (q * 2)); [lia|]. destruct (Nat.ltb_spec (q * 2 + i) (q * 3)); [|lia].
      replace (q * 2 + i - q * 2)%nat with i by lia. rewrite <- S1 at 3. ring.
    - destruct (Nat.ltb_spec (q * 2 + (q + i)) (q * 2)); [lia|]. destruct (Nat.ltb_spec (q * 2 + (q + i)) (q * 3)); [lia|].
      replace (q * 2 + (q + i) - q * 3)%nat with i by lia. rewrite <- S1 at 3. ring.
  Qed.

  Hypothesis Us : usz (q * 4).
  Variables (fq fh : list V -> list V) (rq Cq rh' Ch : R).
  Hypothesis rq1 : 1 <= rq.
  Hypothesis rh1 : 1 <= rh'.
  Hypothesis Cq0 : 0 <= Cq.
  Hypothesis Ch0 : 0 <= Ch.
  Hypothesis fq_len : forall y, length y = q -> length (fq y) = q.
  Hypothesis fh_len : forall y, length y = (q * 2)%nat -> length (fh y) = (q * 2)%nat.
  Hypothesis Fq : rmsf Fm fq q rq Cq.
  Hypothesis Fh : rmsf Fm fh (q * 2) rh' Ch.
  Let eps := fac 4 1 - 1.
  Let eps0 : 0 <= eps. Proof. unfold eps. pose proof (fac_1 Fm N RN 4 1). lra. Qed.

  Section Input.
    Variable a : list V.
    Hypothesis La : length a = (q * 4)%nat.
    Hypothesis Fa : Forall fin a.
    Let n := (q * 4)%nat.
    Let x := map val a.
    Let Lx : length x = n. Proof. unfold x. now rewrite map_length. Qed.
    Let ev := @split_evens V N q a.
    Let q1 := @split_q1 V N q a.
    Let q3 := @split_q3 V N q a.
    Let evx := @split_evens R (RNum rh) q x.
    Let q1x := @split_q1 R (RNum rh) q x.
    Let q3x := @split_q3 R (RNum rh) q x.
    Let Lev : length ev = (q * 2)%nat. Proof. unfold ev, split_evens. now rewrite map_length, seq_length. Qed.
    Let Lq1 : length q1 = q. Proof. unfold q1, split_q1. now rewrite map_length, seq_length. Qed.
    Let Lq3 : length q3 = q. Proof. unfold q3, split_q3. now rewrite map_length, seq_length. Qed.
    Let Levx : length evx = (q * 2)%nat. Proof. unfold evx, split_evens. now rewrite map_length, seq_length. Qed.
    Let Lq1x : length q1x = q. Proof. unfold q1x, split_q1. now rewrite map_length, seq_length. Qed.
    Let Lq3x : length q3x = q. Proof. unfold q3x, split_q3. now rewrite map_length, seq_length. Qed.
    Let s := sc n a.
    Let s0 : 0 <= s. Proof. apply sc0. Qed.

    (** magnitudes in the four quarters *)
    Let ma i := mx a i + mx a (q * 2 + i).
    Let mb i := mx a (q + i) + mx a (q * 3 + i).
    Let sq i := mx a i * mx a i + mx a (q * 2 + i) * mx a (q * 2 + i) + mx a (q + i) * mx a (q + i) + mx a (q * 3 + i) * mx a (q * 3 + i).
    Let sq_sum : rsum q sq = ss n (mx a).
    Proof.
      unfold ss, n, sq. replace (q * 4)%nat with (q + (q + (q + q)))%nat by lia. rewrite !rsum_app, <- !rsum_add. apply rsum_ext. intros i Hi.
      replace (q + (q + (q + i)))%nat with (q * 3 + i)%nat by lia. replace (q + (q + i))%nat with (q * 2 + i)%nat by lia. ring.
    Qed.
    Let sq_le : rsum q sq <= s * s. Proof. rewrite sq_sum. apply (ss_mx Fm). Qed.
    Let ma_sq : rsum (q * 2) (fun i => ma i * ma i) <= 2 * (s * s).
    Proof.
      apply (Rle_trans _ (2 * ss n (mx a))); [|pose proof (ss_mx Fm n a); fold s in H; lra].
      unfold ss, n. replace (q * 4)%nat with (q * 2 + q * 2)%nat by lia. rewrite rsum_app, <- rsum_add, <- rsum_scal. apply rsum_le.
      intros i Hi. unfold ma. pose proof (sq0 (mx a i - mx a (q * 2 + i))). lra.
    Qed.
    Let B (c : nat) : R := (ma c + mb c) + (ma (mir q c) + mb (mir q c)).
    Let B_sq : rsum q (fun c => B c * B c) <= 16 * (s * s).
    Proof.
      apply (Rle_trans _ (rsum q (fun c => 8 * (sq c + sq (mir q c))))).
      - apply rsum_le. intros c Hc. unfold B, ma, mb, sq. set (d := mir q c).
        set (a1 := mx a c). set (a2 := mx a (q * 2 + c)). set (a3 := mx a (q + c)). set (a4 := mx a (q * 3 + c)).
        set (b1 := mx a d). set (b2 := mx a (q * 2 + d)). set (b3 := mx a (q + d)). set (b4 := mx a (q * 3 + d)).
        assert (forall p1 p2 p3 p4, (p1 + p2 + (p3 + p4)) * (p1 + p2 + (p3 + p4)) <= 4 * (p1 * p1 + p2 * p2 + p3 * p3 + p4 * p4)).
        { intros. pose proof (sq0 (p1 - p2)). pose proof (sq0 (p1 - p3)). pose proof (sq0 (p1 - p4)). pose proof (sq0 (p2 - p3)). pose proof (sq0 (p2 - p4)). pose proof (sq0 (p3 - p4)). lra. }
        pose proof (H a1 a2 a3 a4). pose proof (H b1 b2 b3 b4). pose proof (sq0 (a1 + a2 + (a3 + a4) - (b1 + b2 + (b3 + b4)))). lra.
      - rewrite rsum_scal, rsum_add, rsum_mir. lra.
    Qed.
    Let mle j : (j < n)%nat -> mx a j <= s.
    Proof. intros Hj. apply sq_le_inv; auto. apply (Rle_trans _ (ss n (mx a))); [|apply (ss_mx Fm)]. now apply (entry_le n (mx a)). Qed.
    Let B_le c : (c < q)%nat -> B c <= 8 * s.
    Proof.
      intros Hc. pose proof (mir_lt _ _ Hc) as Hd. unfold B, ma, mb.
      pose proof (mle c ltac:(unfold n; lia)). pose proof (mle (q * 2 + c)%nat ltac:(unfold n; lia)). pose proof (mle (q + c)%nat ltac:(unfold n; lia)). pose proof (mle (q * 3 + c)%nat ltac:(unfold n; lia)).
      pose proof (mle (mir q c) ltac:(unfold n; lia)). pose proof (mle (q * 2 + mir q c)%nat ltac:(unfold n; lia)). pose proof (mle (q + mir q c)%nat ltac:(unfold n; lia)). pose proof (mle (q * 3 + mir q c)%nat ltac:(unfold n; lia)).
      lra.
    Qed.

    Hypothesis Hc : Rmax 4 (Rmax Ch Cq) * (1 + 3 * eps) * (sqrt (INR n) * s) <= hi.
    Let sn : 2 <= sqrt (INR n).
    Proof.
      replace 2 with (sqrt (2 * 2)) by (apply sqrt_square; lra). apply sqrt_le_1_alt. unfold n. rewrite mult_INR. pose proof (INR1 q qp). simpl. lra.
    Qed.
    Let c8 : fac 4 1 * (8 * s) <= hi.
    Proof.
      eapply Rle_trans; [|exact Hc]. apply (Rle_trans _ (4 * (1 + 3 * eps) * (sqrt (INR n) * s))).
      - assert (fac 4 1 <= 1 + 3 * eps) by (unfold eps in *; lra). assert (2 * s <= sqrt (INR n) * s) by (apply Rmult_le_compat_r; auto).
        replace (4 * (1 + 3 * eps) * (sqrt (INR n) * s)) with ((1 + 3 * eps) * (4 * (sqrt (INR n) * s))) by ring.
        pose proof (fac_1 Fm N RN 4 1). apply Rmult_le_compat; lra.
      - apply Rmult_le_compat_r; [apply Rmult_le_pos; lra|]. apply Rmult_le_compat_r; [lra|]. apply Rmax_l.
    Qed.
    (** the butterflies *)
    Let tkmx j : (j < n)%nat -> tk 1 (mx a j) (nth j a nzero) (nth j x 0).
    Proof. intros Hj. apply (mx_tk Fm); auto. now rewrite La. Qed.
    Let ev_ak i : (i < q * 2)%nat -> ak Fm (fac 4 1) (ma i) (nth i ev nzero) (nth i evx 0).
    Proof.
      intros Hi. assert (T : tk (fac 4 1) (ma i) (nth i ev nzero) (nth i evx 0)).
      { unfold ev, evx, split_evens. rewrite !nth_map_seq by auto. rewrite !Nat.add_0_l. cbn [nzero RNum nadd].
        apply (tk_mono Fm (1 * (1 + u)) _ (ma i)); try lra.
        - unfold FloatProof.fac. pose proof (fac_mono Fm N RN 1 0 4 1 ltac:(lia) ltac:(lia)) as M. unfold FloatProof.fac in M. simpl in M |- *. lra.
        - apply (tk_add _ _ RN); apply tkmx; unfold n; lia. }
      apply T. eapply Rle_trans; [|exact c8]. apply Rmult_le_compat_l; [unfold eps in eps0; lra|].
      unfold ma. pose proof (mle i ltac:(unfold n; lia)). pose proof (mle (q * 2 + i)%nat ltac:(unfold n; lia)). lra.
    Qed.
    Let od_ak c : (c < q)%nat -> ak Fm (fac 4 1) (B c) (nth c q1 nzero) (nth c q1x 0) /\ ak Fm (fac 4 1) (B c) (nth c q3 nzero) (nth c q3x 0).
    Proof.
      intros Hc'.
      assert (Ta : forall i, (i < q)%nat -> tkn 1 1 0 (ma i) (@split_diff0 V N q a i) (@split_diff0 R (RNum rh) q x i)).
      { intros j Hj. unfold split_diff0, ma. cbn [nzero RNum]. unfold FloatProof.tkn, FloatProof.fac. simpl (_ ^ _). rewrite !Rmult_1_r. apply (tk_sub _ _ RN); apply tkmx; unfold n; lia. }
      assert (Tb : forall i, (i < q)%nat -> tkn 1 1 0 (mb i) (@split_diff1 V N q a i) (@split_diff1 R (RNum rh) q x i)).
      { intros j Hj. unfold split_diff1, mb. cbn [nzero RNum]. unfold FloatProof.tkn, FloatProof.fac. simpl (_ ^ _). rewrite !Rmult_1_r. apply (tk_sub _ _ RN); apply tkmx; unfold n; lia. }
      pose proof (odd_tk Fm N RN q qp Us 1 _ _ _ _ (Rle_refl 1) ma mb Ta Tb c Hc') as [O1 O3].
      unfold FloatProof.tkn in O1, O3. rewrite Rmult_1_l in O1, O3.
      assert (P : forall j, 0 <= mx a j) by (intros; apply (mx0 Fm)).
      assert (LE : (if (c =? 0)%nat then ma 0%nat + mb 0%nat else ma c + mb c + (ma (q - c)%nat + mb (q - c)%nat)) <= B c).
      { unfold B, mir. destruct (Nat.eqb_spec c 0) as [->|]; [|lra].
        pose proof (P 0%nat). pose proof (P (q * 2 + 0)%nat). pose proof (P (q + 0)%nat). pose proof (P (q * 3 + 0)%nat). unfold ma, mb. lra. }
      assert (HB : fac 4 1 * B c <= hi).
      { eapply Rle_trans; [|exact c8]. apply Rmult_le_compat_l; [unfold eps in eps0; lra|]. now apply B_le. }
      split.
      - assert (T : tk (fac 4 1) (B c) (nth c q1 nzero) (nth c q1x 0)); [|now apply T].
        unfold q1, q1x, split_q1. rewrite !nth_map_seq by auto. rewrite !Nat.add_0_l. eapply tk_mono; [| |exact LE|exact O1]; unfold eps in eps0; lra.
      - assert (T : tk (fac 4 1) (B c) (nth c q3 nzero) (nth c q3x 0)); [|now apply T].
        unfold q3, q3x, split_q3. rewrite !nth_map_seq by auto. rewrite !Nat.add_0_l. eapply tk_mono; [| |exact LE|exact O3]; unfold eps in eps0; lra.
    Qed.
    Let dE i := va ev i - nth i evx 0.
    Let d1 i := va q1 i - nth i q1x 0.
    Let d3 i := va q3 i - nth i q3x 0.
    Let local_err : nrm n (comb dE d1 d3) <= 3 * eps * (sqrt (INR n) * s).
    Proof.
      apply ss_le_nrm; [apply Rmult_le_pos; [lra|apply Rmult_le_pos; lra]|]. unfold n at 1. rewrite ss_comb.
      assert (SE : ss (q * 2) dE <= eps * eps * (2 * (s * s))).
      { apply (Rle_trans _ (rsum (q * 2) (fun i => eps * eps * (ma i * ma i)))); [|rewrite rsum_scal; apply Rmult_le_compat_l; auto; apply sq0].
        apply rsum_le. intros i Hi. replace (eps * eps * (ma i * ma i)) with (eps * ma i * (eps * ma i)) by ring. apply abs_sq_le.
        unfold dE. rewrite (va_nth Fm N) by lia. now apply ev_ak. }
      assert (S1 : ss q d1 <= eps * eps * (16 * (s * s))).
      { apply (Rle_trans _ (rsum q (fun i => eps * eps * (B i * B i)))); [|rewrite rsum_scal; apply Rmult_le_compat_l; auto; apply sq0].
        apply rsum_le. intros i Hi. replace (eps * eps * (B i * B i)) with (eps * B i * (eps * B i)) by ring. apply abs_sq_le.
        unfold d1. rewrite (va_nth Fm N) by lia. now apply od_ak. }
      assert (S3 : ss q d3 <= eps * eps * (16 * (s * s))).
      { apply (Rle_trans _ (rsum q (fun i => eps * eps * (B i * B i)))); [|rewrite rsum_scal; apply Rmult_le_compat_l; auto; apply sq0].
        apply rsum_le. intros i Hi. replace (eps * eps * (B i * B i)) with (eps * B i * (eps * B i)) by ring. apply abs_sq_le.
        unfold d3. rewrite (va_nth Fm N) by lia. now apply od_ak. }
      pose proof (pos_INR q) as Q0.
      replace (3 * eps * (sqrt (INR n) * s) * (3 * eps * (sqrt (INR n) * s))) with (9 * (eps * eps) * (sqrt (INR n) * sqrt (INR n)) * (s * s)) by ring.
      rewrite sqrt_sqrt by apply pos_INR. unfold n. rewrite !mult_INR. change (INR 2) with (1 + 1). replace (INR 4) with 4 by (simpl; lra).
      apply (Rmult_le_compat_l _ _ _ Q0) in SE. apply (Rmult_le_compat_l _ _ _ Q0) in S1. apply (Rmult_le_compat_l _ _ _ Q0) in S3. lra.
    Qed.
    (** the exact butterflies keep the weighted norm *)
    Let exact_sum (E O1 O3 : list R) : length E = (q * 2)%nat -> length O1 = q -> length O3 = q ->
      ss n (fun j => nth j (@interleave R (RNum rh) q E O1 O3) 0) = ss (q * 2) (fun j => nth j E 0) + ss q (fun j => nth j O1 0) + ss q (fun j => nth j O3 0).
    Proof.
      intros LE L1 L3. unfold ss, n. apply (inter_sum _ (fun j => nth j E 0 * nth j E 0) (fun j => nth j O1 0 * nth j O1 0) (fun j => nth j O3 0 * nth j O3 0)).
      intros i Hi. destruct (@interleave_nth R (RNum rh) q E O1 O3 i Hi) as (E0 & E1 & E2 & E3). cbn [nzero RNum] in *.
      rewrite E0, E1, E2, E3. auto.
    Qed.
    Let SR : @split_fun R (RNum rh) q dht_spec dht_spec x = dht_spec x.
    Proof. exact (split_real q x qp Lx rh dht_spec dht_spec (fun y _ => eq_refl) (fun y _ => eq_refl)). Qed.
    Let ss_spec m y : length y = m -> ss m (fun j => nth j (dht_spec y) 0) = INR m * ss m (fun j => nth j y 0).
    Proof. intros <-. apply dht_spec_parseval. Qed.
    Let exact_norm : ss n (comb (fun j => nth j evx 0) (fun j => nth j q1x 0) (fun j => nth j q3x 0)) = INR n * ss n (va a).
    Proof.
      change (va a) with (fun j => nth j x 0). rewrite <- ss_spec by auto. rewrite <- SR. unfold split_fun. fold evx q1x q3x.
      rewrite exact_sum by (now rewrite dht_spec_length). rewrite !ss_spec by auto. unfold n. apply ss_comb.
    Qed.
    Let wsum : INR (q * 2) * (sc (q * 2) ev * sc (q * 2) ev) + INR q * (sc q q1 * sc q q1) + INR q * (sc q q3 * sc q q3)
      <= (1 + 3 * eps) * (sqrt (INR n) * s) * ((1 + 3 * eps) * (sqrt (INR n) * s)).
    Proof.
      rewrite !(sc_sq Fm). set (K := (INR (q * 2) * INR (q * 2) + INR q * INR q + INR q * INR q) * (lo * lo)).
      assert (K0 : 0 <= K).
      { unfold K. apply Rmult_le_pos; [|apply sq0]. pose proof (sq0 (INR (q * 2))). pose proof (sq0 (INR q)). lra. }
      assert (E : INR (q * 2) * (ss (q * 2) (va ev) + INR (q * 2) * (lo * lo)) + INR q * (ss q (va q1) + INR q * (lo * lo)) + INR q * (ss q (va q3) + INR q * (lo * lo))
        = ss n (comb (va ev) (va q1) (va q3)) + K) by (unfold n; rewrite ss_comb; unfold K; ring).
      rewrite E. pose proof (ss0 n (comb (va ev) (va q1) (va q3))) as P.
      rewrite <- (sqrt_sqrt (ss n (comb (va ev) (va q1) (va q3)) + K)) by lra.
      assert (T : sqrt (ss n (comb (va ev) (va q1) (va q3)) + K) <= (1 + 3 * eps) * (sqrt (INR n) * s)).
      { set (c0 := comb (fun j => nth j evx 0) (fun j => nth j q1x 0) (fun j => nth j q3x 0)).
        rewrite (ss_ext n _ (fun j => c0 j + comb dE d1 d3 j)).
        2:{ intros j Hj. unfold c0, comb, dE, d1, d3. destruct (j <? q * 2)%nat; [ring|]. destruct (j <? q * 3)%nat; ring. }
        eapply Rle_trans; [apply triangle_plus; auto|].
        assert (T0 : sqrt (ss n c0 + K) <= sqrt (INR n) * s).
        { apply sqrt_le_of; [apply Rmult_le_pos; lra|]. unfold c0. rewrite exact_norm.
          replace (sqrt (INR n) * s * (sqrt (INR n) * s)) with (sqrt (INR n) * sqrt (INR n) * (s * s)) by ring. rewrite sqrt_sqrt by apply pos_INR.
          unfold s. rewrite (sc_sq Fm), Rmult_plus_distr_l. apply Rplus_le_compat_l. unfold K.
          replace (INR n * (INR n * (lo * lo))) with (INR n * INR n * (lo * lo)) by ring. apply Rmult_le_compat_r; [apply sq0|].
          unfold n. rewrite !mult_INR. change (INR 2) with (1 + 1). replace (INR 4) with 4 by (simpl; lra). pose proof (sq0 (INR q)). lra. }
        lra. }
      pose proof (sqrt_pos (ss n (comb (va ev) (va q1) (va q3)) + K)). apply Rmult_le_compat; auto.
    Qed.
    Let S := (1 + 3 * eps) * (sqrt (INR n) * s).
    Let S0 : 0 <= S. Proof. unfold S. apply Rmult_le_pos; [lra|]. apply Rmult_le_pos; lra. Qed.
    Let part m y : INR m * (sc m y * sc m y) <= S * S -> sqrt (INR m) * sc m y <= S.
    Proof.
      intros H. apply sq_le_inv; auto. replace (sqrt (INR m) * sc m y * (sqrt (INR m) * sc m y)) with (sqrt (INR m) * sqrt (INR m) * (sc m y * sc m y)) by ring.
      now rewrite sqrt_sqrt by apply pos_INR.
    Qed.
    Let pos3 m y : 0 <= INR m * (sc m y * sc m y). Proof. apply Rmult_le_pos; [apply pos_INR|apply sq0]. Qed.
    Let capped C' m y : 0 <= C' -> C' <= Rmax 4 (Rmax Ch Cq) -> sqrt (INR m) * sc m y <= S -> C' * (sqrt (INR m) * sc m y) <= hi.
    Proof.
      intros P LE H. eapply Rle_trans; [|exact Hc]. rewrite Rmult_assoc. fold S. apply Rmult_le_compat; auto.
      apply Rmult_le_pos; [apply sqrt_pos|apply sc0].
    Qed.
    Let inE : Forall fin (fh ev) /\ nrm (q * 2) (fun j => va (fh ev) j - dhtf (q * 2) (va ev) j) <= (rh' - 1) * (sqrt (INR (q * 2)) * sc (q * 2) ev).
    Proof.
      apply Fh; auto.
      - apply (fin_all Fm N _ (q * 2)); auto. intros. now apply ev_ak.
      - apply capped; auto; [eapply Rle_trans; [apply Rmax_l|apply Rmax_r]|]. apply part.
        eapply Rle_trans; [|exact wsum]. pose proof (pos3 q q1). pose proof (pos3 q q3). lra.
    Qed.
    Let in1 : Forall fin (fq q1) /\ nrm q (fun j => va (fq q1) j - dhtf q (va q1) j) <= (rq - 1) * (sqrt (INR q) * sc q q1).
    Proof.
      apply Fq; auto.
      - apply (fin_all Fm N _ q); auto. intros. now apply od_ak.
      - apply capped; auto; [eapply Rle_trans; [apply Rmax_r|apply Rmax_r]|]. apply part.
        eapply Rle_trans; [|exact wsum]. pose proof (pos3 (q * 2)%nat ev). pose proof (pos3 q q3). lra.
    Qed.
    Let in3 : Forall fin (fq q3) /\ nrm q (fun j => va (fq q3) j - dhtf q (va q3) j) <= (rq - 1) * (sqrt (INR q) * sc q q3).
    Proof.
      apply Fq; auto.
      - apply (fin_all Fm N _ q); auto. intros. now apply od_ak.
      - apply capped; auto; [eapply Rle_trans; [apply Rmax_r|apply Rmax_r]|]. apply part.
        eapply Rle_trans; [|exact wsum]. pose proof (pos3 (q * 2)%nat ev). pose proof (pos3 q q1). lra.
    Qed.

    Lemma split_input : Forall fin (@split_fun V N q fq fh a) /\
      nrm n (fun j => va (@split_fun V N q fq fh a) j - dhtf n (va a) j) <= (Rmax rh' rq * (1 + 3 * eps) - 1) * (sqrt (INR n) * s).
    Proof.
      destruct inE as [FE EE], in1 as [F1 E1], in3 as [F3 E3].
      pose proof (fh_len ev Lev) as LE. pose proof (fq_len q1 Lq1) as L1. pose proof (fq_len q3 Lq3) as L3.
      assert (Lo : length (@split_fun V N q fq fh a) = n) by (unfold split_fun, interleave; now rewrite tab_length).
      assert (I : forall i, (i < q)%nat -> nth (4 * i + 0) (@split_fun V N q fq fh a) nzero = nth (i * 2) (fh ev) nzero /\
        nth (4 * i + 1) (@split_fun V N q fq fh a) nzero = nth i (fq q1) nzero /\
        nth (4 * i + 2) (@split_fun V N q fq fh a) nzero = nth (i * 2 + 1) (fh ev) nzero /\
        nth (4 * i + 3) (@split_fun V N q fq fh a) nzero = nth i (fq q3) nzero) by (intros; now apply interleave_nth).
      split.
      { apply (fin_all Fm N _ n); auto. intros k Hk. destruct (quad_cases q k Hk) as (i & j & Hi & Hj & ->). destruct (I i Hi) as (I0 & I1 & I2 & I3).
        destruct j as [|[|[|[|j]]]]; [rewrite I0|rewrite I1|rewrite I2|rewrite I3|lia]; apply (fin_nth Fm N); auto; lia. }
      pose (mid := @interleave R (RNum rh) q (dht_spec (map val ev)) (dht_spec (map val q1)) (dht_spec (map val q3))).
      assert (J : forall i, (i < q)%nat -> nth (4 * i + 0) mid 0 = dhtf (q * 2) (va ev) (i * 2) /\ nth (4 * i + 1) mid 0 = dhtf q (va q1) i /\
        nth (4 * i + 2) mid 0 = dhtf (q * 2) (va ev) (i * 2 + 1) /\ nth (4 * i + 3) mid 0 = dhtf q (va q3) i).
      { intros i Hi. destruct (@interleave_nth R (RNum rh) q (dht_spec (map val ev)) (dht_spec (map val q1)) (dht_spec (map val q3)) i Hi) as (J0 & J1 & J2 & J3).
        cbn [nzero RNum] in *. fold mid in J0, J1, J2, J3. rewrite J0, J1, J2, J3. rewrite !nth_dht_spec by (rewrite map_length; lia).
        rewrite !dht_at_dhtf, !map_length, Lev, Lq1, Lq3. auto. }
      assert (X : forall i, (i < q)%nat -> nth (4 * i + 0) (dht_spec x) 0 = dhtf (q * 2) (fun j => nth j evx 0) (i * 2) /\ nth (4 * i + 1) (dht_spec x) 0 = dhtf q (fun j => nth j q1x 0) i /\
        nth (4 * i + 2) (dht_spec x) 0 = dhtf (q * 2) (fun j => nth j evx 0) (i * 2 + 1) /\ nth (4 * i + 3) (dht_spec x) 0 = dhtf q (fun j => nth j q3x 0) i).
      { intros i Hi. rewrite <- SR. unfold split_fun. fold evx q1x q3x.
        destruct (@interleave_nth R (RNum rh) q (dht_spec evx) (dht_spec q1x) (dht_spec q3x) i Hi) as (J0 & J1 & J2 & J3).
        cbn [nzero RNum] in *. rewrite J0, J1, J2, J3. rewrite !nth_dht_spec by lia. rewrite !dht_at_dhtf, Levx, Lq1x, Lq3x. auto. }
      set (r := Rmax rh' rq). assert (R1 : rh' <= r) by apply Rmax_l. assert (R2 : rq <= r) by apply Rmax_r.
      (* the inner transforms *)
      assert (A1 : nrm n (fun j => va (@split_fun V N q fq fh a) j - nth j mid 0) <= (r - 1) * S).
      { apply ss_le_nrm; [apply Rmult_le_pos; lra|].
        pose (eE j := va (fh ev) j - dhtf (q * 2) (va ev) j). pose (e1 j := va (fq q1) j - dhtf q (va q1) j). pose (e3 j := va (fq q3) j - dhtf q (va q3) j).
        unfold ss, n. rewrite (inter_sum _ (fun j => eE j * eE j) (fun j => e1 j * e1 j) (fun j => e3 j * e3 j)).
        2:{ intros i Hi. destruct (I i Hi) as (I0 & I1 & I2 & I3), (J i Hi) as (J0 & J1 & J2 & J3). unfold eE, e1, e3.
            rewrite !(va_nth Fm N) by (rewrite ?Lo, ?LE, ?L1, ?L3; unfold n; lia). rewrite I0, I1, I2, I3, J0, J1, J2, J3. auto. }
        assert (Q : forall m f y r', r' <= r -> nrm m f <= (r' - 1) * (sqrt (INR m) * sc m y) -> 1 <= r' -> rsum m (fun j => f j * f j) <= (r - 1) * (r - 1) * (INR m * (sc m y * sc m y))).
        { intros m f y r' Rr H R0. fold (ss m f). rewrite <- nrm_sq. rewrite <- (sqrt_sqrt (INR m)) by apply pos_INR.
          pose proof (sqrt_pos (INR m)). pose proof (sc0 Fm m y). pose proof (nrm0 m f).
          assert (0 <= sqrt (INR m) * sc m y) by (now apply Rmult_le_pos).
          assert (H' : nrm m f <= (r - 1) * (sqrt (INR m) * sc m y)) by (eapply Rle_trans; [exact H|]; apply Rmult_le_compat_r; lra).
          replace ((r - 1) * (r - 1) * (sqrt (INR m) * sqrt (INR m) * (sc m y * sc m y))) with ((r - 1) * (sqrt (INR m) * sc m y) * ((r - 1) * (sqrt (INR m) * sc m y))) by ring.
          now apply Rmult_le_compat. }
        pose proof (Q _ eE ev rh' R1 EE rh1). pose proof (Q _ e1 q1 rq R2 E1 rq1). pose proof (Q _ e3 q3 rq R2 E3 rq1).
        replace ((r - 1) * S * ((r - 1) * S)) with ((r - 1) * (r - 1) * (S * S)) by ring.
        assert (W' : (r - 1) * (r - 1) * (INR (q * 2) * (sc (q * 2) ev * sc (q * 2) ev) + INR q * (sc q q1 * sc q q1) + INR q * (sc q q3 * sc q q3)) <= (r - 1) * (r - 1) * (S * S)) by (apply Rmult_le_compat_l; [apply sq0|exact wsum]).
        lra. }
      (* the butterflies *)
      assert (A2 : nrm n (fun j => nth j mid 0 - nth j (dht_spec x) 0) = nrm n (comb dE d1 d3)).
      { unfold nrm. f_equal. unfold n. rewrite ss_comb, <- !ss_dhtf. unfold ss.
        apply (inter_sum _ (fun j => dhtf (q * 2) dE j * dhtf (q * 2) dE j) (fun j => dhtf q d1 j * dhtf q d1 j) (fun j => dhtf q d3 j * dhtf q d3 j)).
        intros i Hi. destruct (J i Hi) as (J0 & J1 & J2 & J3), (X i Hi) as (X0 & X1 & X2 & X3). rewrite J0, J1, J2, J3, X0, X1, X2, X3.
        unfold dE, d1, d3. rewrite !dhtf_sub. auto. }
      rewrite (nrm_ext _ _ (fun j => (va (@split_fun V N q fq fh a) j - nth j mid 0) + (nth j mid 0 - nth j (dht_spec x) 0))).
      2:{ intros j Hj. rewrite nth_dht_spec by lia. rewrite dht_at_dhtf, Lx. change (fun j => nth j x 0) with (va a). ring. }
      eapply Rle_trans; [apply minkowski|]. rewrite A2. pose proof local_err. unfold S in A1.
      replace ((r * (1 + 3 * eps) - 1) * (sqrt (INR n) * s)) with ((r - 1) * ((1 + 3 * eps) * (sqrt (INR n) * s)) + 3 * eps * (sqrt (INR n) * s)) by ring. lra.
    Qed.
  End Input.

  Lemma split_rmsf : rmsf Fm (@split_fun V N q fq fh) (q * 4) (Rmax rh' rq * (1 + 3 * eps)) (Rmax 4 (Rmax Ch Cq) * (1 + 3 * eps)).
  Proof. intros a La Fa Hc. now apply split_input. Qed.
End Split.
