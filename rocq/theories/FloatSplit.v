(** * Rounding errors of SplitRadix *)
From Verif Require Import Lemmas Contract SplitRadixProof RealDHT SplitReal.
From Verif Require Export FloatMixed.
From Coq Require Import Reals Lra Lia List Arith Psatz.
Import ListNotations.
Local Open Scope R_scope.

Section Split.
  Context {V : Type} (Fm : fmt V) (N : Num V) (RN : rounded Fm N).
  Notation u := (fu Fm). Notation tau := (ftau Fm). Notation rho := (frho Fm). Notation tkf := (tkf Fm). Notation tkn := (tkn Fm). Notation ckn := (ckn Fm). Notation ck := (ck Fm). Notation tk := (tk Fm).
  Let Hu : 0 <= u := r_u _ _ RN.
  Let Ht : 0 <= tau := r_tau _ _ RN.
  Variable q : nat.
  Hypothesis qp : (0 < q)%nat.
  Hypothesis Us : usz (q * 4).

  Section Odd.
    Variables (p : R) (a b : nat -> V) (a' b' : nat -> R).
    Hypothesis p1 : 1 <= p.
    Variables (ma mb : nat -> R).
    Hypothesis Ta : forall i, (i < q)%nat -> tkn p 1 0 (ma i) (a i) (a' i).
    Hypothesis Tb : forall i, (i < q)%nat -> tkn p 1 0 (mb i) (b i) (b' i).
    Let B (c : nat) : R := if (c =? 0)%nat then ma 0%nat + mb 0%nat else (ma c + mb c) + (ma (q - c)%nat + mb (q - c)%nat).

    Ltac odd :=
      eapply (tkn_mono _ _ RN); [eassumption| | | |expr]; [cbn; lia|cbn; lia|cbn -[Rmult Rplus]; lra].
    Lemma odd_tk c : (c < q)%nat ->
      tkn p 4 1 (B c) (@split_odd1 V N q a b c) (@split_odd1 R (RNum rh) q a' b' c) /\
      tkn p 4 1 (B c) (@split_odd3 V N q a b c) (@split_odd3 R (RNum rh) q a' b' c).
    Proof.
      intros Hc. unfold B, split_odd1, split_odd3. cbn [nadd nsub nmul RNum].
      assert (K : forall i n, (0 < n)%nat -> (i <= 2 * n)%nat -> usz n -> ckn 0 1 1 (re (@compute_dft_twiddle_inverse V N i n)) (re (@compute_dft_twiddle_inverse R (RNum rh) i n)) /\
                      ckn 0 1 1 (im (@compute_dft_twiddle_inverse V N i n)) (im (@compute_dft_twiddle_inverse R (RNum rh) i n)))
        by (intros; now apply (ckn_dft _ _ RN)).
      destruct (Nat.eqb_spec c 0) as [->|Nc].
      { pose proof (Ta 0%nat ltac:(lia)). pose proof (Tb 0%nat ltac:(lia)). split; odd. }
      pose proof (Ta c ltac:(lia)). pose proof (Tb c ltac:(lia)). pose proof (Ta (q - c)%nat ltac:(lia)). pose proof (Tb (q - c)%nat ltac:(lia)).
      destruct (Nat.ltb_spec (2 * c) q).
      - destruct (K (c * 1)%nat (q * 4)%nat ltac:(lia) ltac:(lia) Us) as [C1 S1], (K (c * 3)%nat (q * 4)%nat ltac:(lia) ltac:(lia) Us) as [C3 S3]. split; odd.
      - destruct (K ((q - c) * 1)%nat (q * 4)%nat ltac:(lia) ltac:(lia) Us) as [C1 S1], (K ((q - c) * 3)%nat (q * 4)%nat ltac:(lia) ltac:(lia) Us) as [C3 S3]. split; odd.
    Qed.
    Lemma odd_sum : (forall i, (i < q)%nat -> 0 <= ma i + mb i) -> rsum q B <= 2 * rsum q (fun i => ma i + mb i).
    Proof.
      intros P. set (m' i := ma i + mb i). assert (P' : forall i, (i < q)%nat -> 0 <= m' i) by exact P.
      assert (EB : rsum q B = rsum q (fun c => if (c =? 0)%nat then m' 0%nat else m' c + m' (q - c)%nat)) by reflexivity.
      rewrite EB. clear EB. clearbody m'. clear - P'. destruct q as [|n]; [simpl; lra|]. rewrite !rsum_S_l.
      rewrite (rsum_ext n _ (fun j => m' (S j) + m' (n - j)%nat)) by reflexivity. rewrite rsum_add.
      assert (E : rsum n (fun j => m' (n - j)%nat) = rsum n (fun j => m' (S j))).
      { rewrite (rsum_rev n (fun j => m' (S j))). apply rsum_ext. intros j Hj. f_equal. lia. }
      rewrite E. simpl (0 =? 0)%nat. cbv iota. pose proof (P' 0%nat ltac:(lia)). lra.
    Qed.
  End Odd.

  Variables (fq fh : list V -> list V) (phiq Gq phih Gh : R).
  Hypothesis fq_len : forall y, length y = q -> length (fq y) = q.
  Hypothesis phiq1 : 1 <= phiq.
  Hypothesis phih1 : 1 <= phih.
  Hypothesis Gq1 : 0 <= Gq.
  Hypothesis Gh1 : 0 <= Gh.
  Hypothesis Fq : tkf fq q phiq Gq.
  Hypothesis Fh : tkf fh (q * 2) phih Gh.

  Lemma split_tkf : tkf (@split_fun V N q fq fh) (q * 4) (Rmax (phih * fac u tau 1 0) (phiq * fac u tau 4 1)) (Rmax Gh (2 * Gq)).
  Proof.
    intros p M a x p1 La Lx T k Hk.
    rewrite <- nth_dht_spec by lia.
    rewrite <- (split_real q x qp Lx rh dht_spec dht_spec (fun y _ => eq_refl) (fun y _ => eq_refl)).
    set (phi := Rmax _ _). set (G := Rmax _ _).
    assert (P1 : phih * fac u tau 1 0 <= phi) by apply Rmax_l. assert (P2 : phiq * fac u tau 4 1 <= phi) by apply Rmax_r.
    assert (G2 : Gh <= G) by apply Rmax_l. assert (G3 : 2 * Gq <= G) by apply Rmax_r.
    pose proof (fac_1 Fm N RN 1 0) as F1. pose proof (fac_1 Fm N RN 4 1) as F4.
    clearbody phi G.
    assert (SM : rsum (q * 4) M = rsum (q * 2) (fun i => M i + M (q * 2 + i)%nat)).
    { replace (q * 4)%nat with (q * 2 + q * 2)%nat by lia. rewrite rsum_app, rsum_add. reflexivity. }
    assert (SM4 : rsum (q * 4) M = rsum q (fun i => (M i + M (q * 2 + i)%nat) + (M (q + i)%nat + M (q * 3 + i)%nat))).
    { rewrite SM. replace (q * 2)%nat with (q + q)%nat at 1 by lia. rewrite rsum_app, <- rsum_add. apply rsum_ext.
      intros i Hi. do 3 f_equal. lia. }
    assert (PM : forall j, (j < q * 4)%nat -> 0 <= M j) by (intros; eapply tk_pos; eauto).
    assert (SM0 : 0 <= rsum (q * 4) M) by (apply rsum_nonneg; auto).
    (* the half transform *)
    assert (EV : forall i, (i < q * 2)%nat -> tk (p * phi) (G * rsum (q * 4) M)
       (nth i (fh (@split_evens V N q a)) nzero) (nth i (dht_spec (@split_evens R (RNum rh) q x)) 0)).
    { intros i Hi. unfold split_evens. rewrite nth_dht_spec by (now rewrite map_length, seq_length).
      apply (tk_mono Fm (p * (1 + u) * phih) _ (Gh * rsum (q * 2) (fun i => M i + M (q * 2 + i)%nat))).
      - assert (1 <= p * (1 + u)) by nra. nra.
      - replace (p * (1 + u) * phih) with (p * (phih * fac u tau 1 0)) by (unfold fac; simpl; ring). apply Rmult_le_compat_l; lra.
      - rewrite SM. rewrite SM in SM0. apply Rmult_le_compat_r; auto.
      - apply Fh; try (now rewrite map_length, seq_length); [nra| |assumption].
        intros j Hj. rewrite !nth_map_seq by auto. rewrite Nat.add_0_l. cbn [nzero RNum]. apply (tk_add _ _ RN); apply T; lia. }
    (* the quarter transforms *)
    assert (OD : forall i, (i < q)%nat ->
       tk (p * phi) (G * rsum (q * 4) M) (nth i (fq (@split_q1 V N q a)) nzero) (nth i (dht_spec (@split_q1 R (RNum rh) q x)) 0) /\
       tk (p * phi) (G * rsum (q * 4) M) (nth i (fq (@split_q3 V N q a)) nzero) (nth i (dht_spec (@split_q3 R (RNum rh) q x)) 0)).
    { intros i Hi. unfold split_q1, split_q3. rewrite !nth_dht_spec by (now rewrite map_length, seq_length).
      pose (ma i := M i + M (q * 2 + i)%nat). pose (mb i := M (q + i)%nat + M (q * 3 + i)%nat).
      assert (Ta : forall i, (i < q)%nat -> tkn p 1 0 (ma i) (@split_diff0 V N q a i) (@split_diff0 R (RNum rh) q x i)).
      { intros j Hj. unfold split_diff0, ma. cbn [nzero RNum]. unfold FloatProof.tkn, fac. simpl (_ ^ _). rewrite !Rmult_1_r. apply (tk_sub _ _ RN); apply T; lia. }
      assert (Tb : forall i, (i < q)%nat -> tkn p 1 0 (mb i) (@split_diff1 V N q a i) (@split_diff1 R (RNum rh) q x i)).
      { intros j Hj. unfold split_diff1, mb. cbn [nzero RNum]. unfold FloatProof.tkn, fac. simpl (_ ^ _). rewrite !Rmult_1_r. apply (tk_sub _ _ RN); apply T; lia. }
      pose proof (odd_tk p _ _ _ _ p1 ma mb Ta Tb) as OT.
      pose proof (odd_sum ma mb ltac:(intros j Hj; unfold ma, mb; pose proof (PM j ltac:(lia)); pose proof (PM (q * 2 + j)%nat ltac:(lia));
        pose proof (PM (q + j)%nat ltac:(lia)); pose proof (PM (q * 3 + j)%nat ltac:(lia)); lra)) as OS.
      change (rsum q (fun i => ma i + mb i)) with (rsum q (fun i => (M i + M (q * 2 + i)%nat) + (M (q + i)%nat + M (q * 3 + i)%nat))) in OS. rewrite <- SM4 in OS.
      set (B := fun c : nat => if (c =? 0)%nat then ma 0%nat + mb 0%nat else (ma c + mb c) + (ma (q - c)%nat + mb (q - c)%nat)) in OS.
      assert (K : forall (ga : nat -> V) (gx : nat -> R), (forall c, (c < q)%nat -> tkn p 4 1 (B c) (ga c) (gx c)) ->
        tk (p * phi) (G * rsum (q * 4) M) (nth i (fq (map ga (seq 0 q))) nzero) (dht_at (map gx (seq 0 q)) i)).
      { intros ga gx TT. apply (tk_mono Fm (p * fac u tau 4 1 * phiq) _ (Gq * rsum q B)).
        - assert (1 <= p * fac u tau 4 1) by nra. nra.
        - replace (p * fac u tau 4 1 * phiq) with (p * (phiq * fac u tau 4 1)) by ring. apply Rmult_le_compat_l; lra.
        - apply (Rle_trans _ (Gq * (2 * rsum (q * 4) M))); [apply Rmult_le_compat_l; auto|].
          replace (Gq * (2 * rsum (q * 4) M)) with (2 * Gq * rsum (q * 4) M) by ring. apply Rmult_le_compat_r; auto.
        - apply Fq; try (now rewrite map_length, seq_length); [nra| |assumption].
          intros j Hj. rewrite !nth_map_seq by auto. rewrite Nat.add_0_l. now apply TT. }
      split; apply K; intros; now apply OT. }
    destruct (quad_cases q k Hk) as (i & j & Hi & Hj & ->).
    unfold split_fun.
    destruct (@interleave_nth V N q (fh (@split_evens V N q a)) (fq (@split_q1 V N q a)) (fq (@split_q3 V N q a)) i Hi) as (E0 & E1 & E2 & E3).
    destruct (@interleave_nth R (RNum rh) q (dht_spec (@split_evens R (RNum rh) q x)) (dht_spec (@split_q1 R (RNum rh) q x)) (dht_spec (@split_q3 R (RNum rh) q x)) i Hi) as (E0' & E1' & E2' & E3').
    cbn [nzero RNum] in *.
    destruct (OD i Hi).
    destruct j as [|[|[|[|j]]]]; [| | | |lia].
    - rewrite E0, E0'. apply EV. lia.
    - rewrite E1, E1'. auto.
    - rewrite E2, E2'. apply EV. lia.
    - rewrite E3, E3'. auto.
  Qed.
End Split.
