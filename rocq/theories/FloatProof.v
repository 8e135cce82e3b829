(** * Rounding errors of the algorithms *)
From Verif Require Import Lemmas Contract ButterfliesProof NxnProof NxnInst MixedRadixProof MixedContract SplitRadixProof
  RealDHT MixedReal ButterfliesReal NxnReal ConstProof ApiProof.
From Verif Require Export FloatSpec.
From Coq Require Import Reals Lra Lia List Arith Psatz.
Import ListNotations.
Local Open Scope R_scope.

Definition fac (u tau : R) (a b : nat) : R := (1 + u) ^ a * (1 + tau) ^ b.

Section Def.
  Context {V : Type} (Fm : fmt V).
  (** [v] is a finite computed value of [e], which is at most [M] in magnitude; the error is at most (p - 1) M *)
  Definition ak (p M : R) (v : V) (e : R) : Prop :=
    ffin Fm v /\ Rabs (fval Fm v - e) <= (p - 1) * M /\ Rabs e <= M.
  (** a constant the data are multiplied with *)
  Definition ck (p M : R) (v : V) (e : R) : Prop := 1 <= p /\ 1 <= M /\ ak p M v e.
  (** the same of data, provided nothing up to the size p M overflows *)
  Definition tk (p M : R) (v : V) (e : R) : Prop :=
    1 <= p /\ flo Fm <= M /\ Rabs e <= M /\ (p * M <= fhi Fm -> ak p M v e).
  Definition tkn (p : R) (a b : nat) := tk (p * fac (fu Fm) (ftau Fm) a b).
  Definition ckn (a b : nat) := ck (fac (fu Fm) (ftau Fm) a b).

  (** [f] turns computed values of x into computed values of its transform *)
  Definition tkf {N : Num V} (f : list V -> list V) (n : nat) (phi G : R) : Prop :=
    forall p M a x, 1 <= p -> length a = n -> length x = n ->
      (forall j, (j < n)%nat -> tk p (M j) (nth j a nzero) (nth j x 0)) ->
      forall k, (k < n)%nat -> tk (p * phi) (G * rsum n M) (nth k (f a) nzero) (dht_at x k).

  Lemma tk_pos p M v e : tk p M v e -> 0 <= M.
  Proof. intros (_ & _ & H & _). pose proof (Rabs_pos e). lra. Qed.
  Lemma tk_p p M v e : tk p M v e -> 1 <= p.
  Proof. intros H. apply H. Qed.
  Lemma tk_lo p M v e : tk p M v e -> flo Fm <= M.
  Proof. intros H. apply H. Qed.
  Lemma ak_mono p p' M M' v e : 1 <= p -> p <= p' -> M <= M' -> ak p M v e -> ak p' M' v e.
  Proof.
    intros Hp Hpp HM (F & H1 & H2). pose proof (Rabs_pos e). repeat split; auto; [|lra].
    apply (Rle_trans _ _ _ H1). apply Rmult_le_compat; lra.
  Qed.
  Lemma tk_mono p p' M M' v e : 1 <= p -> p <= p' -> M <= M' -> tk p M v e -> tk p' M' v e.
  Proof.
    intros Hp Hpp HM T. pose proof (tk_pos _ _ _ _ T). destruct T as (_ & H1 & H2 & H3). split; [lra|]. split; [lra|]. split; [lra|].
    intros C; apply (ak_mono p p' M M'); auto; apply H3; apply (Rle_trans _ (p' * M')); auto; apply Rmult_le_compat; lra.
  Qed.
  Lemma ck_mono p p' M M' v e : p <= p' -> M <= M' -> ck p M v e -> ck p' M' v e.
  Proof. intros Hp HM (P & Q & A). split; [lra|]. split; [lra|]. apply (ak_mono p p' M M'); auto. Qed.
  Lemma ak_abs p M v e : ak p M v e -> Rabs (fval Fm v) <= p * M.
  Proof.
    intros (_ & H1 & H2). pose proof (Rabs_triang (fval Fm v - e) e) as H. replace (fval Fm v - e + e) with (fval Fm v) in H by lra. lra.
  Qed.
  Lemma tk_exact v : ffin Fm v -> tk 1 (Rmax (Rabs (fval Fm v)) (flo Fm)) v (fval Fm v).
  Proof.
    intros Fv. split; [lra|]. split; [apply Rmax_r|]. split; [apply Rmax_l|]. intros _. split; auto.
    rewrite Rminus_eq_0, Rabs_R0. split; [lra|apply Rmax_l].
  Qed.
End Def.

Section Rounded.
  Context {V : Type} (Fm : fmt V) (N : Num V) (RN : rounded Fm N).
  Notation u := (fu Fm). Notation tau := (ftau Fm). Notation rho := (frho Fm). Notation lo := (flo Fm). Notation hi := (fhi Fm).
  Notation ak := (ak Fm). Notation tk := (tk Fm). Notation ck := (ck Fm). Notation tkn := (tkn Fm). Notation ckn := (ckn Fm).
  Notation fac := (fac u tau).
  Let Hu : 0 <= u := r_u _ _ RN.
  Let Ht : 0 <= tau := r_tau _ _ RN.
  Let Hr : 0 <= rho := r_rho _ _ RN.
  Let Hlo : 0 <= lo := r_lo _ _ RN.
  Let Hhi : 2 * (1 + tau) * (1 + rho) <= hi := r_hi _ _ RN.

  Lemma lo_1 : lo <= 1.
  Proof. pose proof (r_lo_small _ _ RN). assert (1 <= 2 ^ 64) by (apply pow_R1_Rle; lra). nra. Qed.

  (** one rounding *)
  Lemma ak_round p M v e w : 1 <= p -> ffin Fm w -> Rabs (v - e) <= (p - 1) * M -> Rabs e <= M -> Rabs (fval Fm w - v) <= u * (p * M) ->
    ak (p * (1 + u)) M w e.
  Proof.
    intros Hp F A B Hw. split; [auto|]. split; [|lra].
    replace (fval Fm w - e) with ((fval Fm w - v) + (v - e)) by lra. eapply Rle_trans; [apply Rabs_triang|]. lra.
  Qed.
  Lemma ak_add p M1 M2 a1 a2 e1 e2 : 1 <= p -> p * (M1 + M2) <= hi -> ak p M1 a1 e1 -> ak p M2 a2 e2 ->
    ak (p * (1 + u)) (M1 + M2) (@nadd V N a1 a2) (e1 + e2).
  Proof.
    intros Hp C A1 A2. pose proof (ak_abs _ _ _ _ _ A1). pose proof (ak_abs _ _ _ _ _ A2).
    pose proof (Rabs_triang (fval Fm a1) (fval Fm a2)). destruct A1 as (F1 & A1 & B1), A2 as (F2 & A2 & B2).
    destruct (r_add _ _ RN a1 a2 F1 F2) as [F E]; [lra|].
    apply (ak_round _ _ (fval Fm a1 + fval Fm a2)); auto.
    - replace (fval Fm a1 + fval Fm a2 - (e1 + e2)) with ((fval Fm a1 - e1) + (fval Fm a2 - e2)) by lra. eapply Rle_trans; [apply Rabs_triang|]. lra.
    - eapply Rle_trans; [apply Rabs_triang|]. lra.
    - eapply Rle_trans; [exact E|]. apply Rmult_le_compat_l; lra.
  Qed.
  Lemma ak_sub p M1 M2 a1 a2 e1 e2 : 1 <= p -> p * (M1 + M2) <= hi -> ak p M1 a1 e1 -> ak p M2 a2 e2 ->
    ak (p * (1 + u)) (M1 + M2) (@nsub V N a1 a2) (e1 - e2).
  Proof.
    intros Hp C A1 A2. pose proof (ak_abs _ _ _ _ _ A1). pose proof (ak_abs _ _ _ _ _ A2).
    pose proof (Rabs_triang (fval Fm a1) (- fval Fm a2)) as TR. rewrite Rabs_Ropp in TR. fold (fval Fm a1 - fval Fm a2) in TR.
    destruct A1 as (F1 & A1 & B1), A2 as (F2 & A2 & B2).
    destruct (r_sub _ _ RN a1 a2 F1 F2) as [F E]; [lra|].
    apply (ak_round _ _ (fval Fm a1 - fval Fm a2)); auto.
    - replace (fval Fm a1 - fval Fm a2 - (e1 - e2)) with ((fval Fm a1 - e1) + - (fval Fm a2 - e2)) by lra. eapply Rle_trans; [apply Rabs_triang|]. rewrite Rabs_Ropp. lra.
    - unfold Rminus. eapply Rle_trans; [apply Rabs_triang|]. rewrite Rabs_Ropp. lra.
    - eapply Rle_trans; [exact E|]. apply Rmult_le_compat_l; lra.
  Qed.
  Lemma ak_mul p1 p2 M1 M2 a1 a2 e1 e2 : 1 <= p1 -> 1 <= p2 -> p1 * p2 * (M1 * M2) <= hi -> lo <= M1 * M2 ->
    ak p1 M1 a1 e1 -> ak p2 M2 a2 e2 -> ak (p1 * p2 * (1 + u)) (M1 * M2) (@nmul V N a1 a2) (e1 * e2).
  Proof.
    intros Hp1 Hp2 C L A1 A2. pose proof (ak_abs _ _ _ _ _ A1) as Q1. pose proof (ak_abs _ _ _ _ _ A2) as Q2.
    destruct A1 as (F1 & A1 & B1), A2 as (F2 & A2 & B2).
    assert (P : Rabs (fval Fm a1 * fval Fm a2) <= p1 * p2 * (M1 * M2)).
    { rewrite Rabs_mult. replace (p1 * p2 * (M1 * M2)) with ((p1 * M1) * (p2 * M2)) by ring. apply Rmult_le_compat; auto using Rabs_pos. }
    assert (1 <= p1 * p2) by nra. pose proof (Rabs_pos e1). pose proof (Rabs_pos e2).
    destruct (r_mul _ _ RN a1 a2 F1 F2) as [F E]; [lra|].
    apply (ak_round _ _ (fval Fm a1 * fval Fm a2)); auto.
    - replace (fval Fm a1 * fval Fm a2 - e1 * e2) with ((fval Fm a1 - e1) * fval Fm a2 + e1 * (fval Fm a2 - e2)) by lra.
      eapply Rle_trans; [apply Rabs_triang|]. rewrite !Rabs_mult.
      assert (Rabs (fval Fm a1 - e1) * Rabs (fval Fm a2) <= (p1 - 1) * M1 * (p2 * M2)) by (apply Rmult_le_compat; auto using Rabs_pos).
      assert (Rabs e1 * Rabs (fval Fm a2 - e2) <= M1 * ((p2 - 1) * M2)) by (apply Rmult_le_compat; auto using Rabs_pos).
      lra.
    - rewrite Rabs_mult. apply Rmult_le_compat; auto using Rabs_pos.
    - eapply Rle_trans; [exact E|]. apply Rmult_le_compat_l; auto. apply Rmax_lub; auto. nra.
  Qed.
  Lemma ak_opp p M v e : ak p M v e -> ak p M (@nopp V N v) (- e).
  Proof.
    intros (F & A & B). destruct (r_opp _ _ RN v F) as [F' E]. split; auto. rewrite E, Rabs_Ropp. split; auto.
    replace (- fval Fm v - - e) with (- (fval Fm v - e)) by lra. now rewrite Rabs_Ropp.
  Qed.

  (** ** data *)
  Lemma tk_add p M1 M2 a1 a2 e1 e2 : tk p M1 a1 e1 -> tk p M2 a2 e2 -> tk (p * (1 + u)) (M1 + M2) (@nadd V N a1 a2) (e1 + e2).
  Proof.
    intros T1 T2. pose proof (tk_pos _ _ _ _ _ T1). pose proof (tk_pos _ _ _ _ _ T2). pose proof (Rabs_triang e1 e2).
    destruct T1 as (P & L1 & B1 & C1), T2 as (_ & L2 & B2 & C2). split; [nra|]. split; [lra|]. split; [lra|]. intros C.
    assert (p * (M1 + M2) <= hi) by (apply (Rle_trans _ (p * (1 + u) * (M1 + M2))); auto; apply Rmult_le_compat_r; nra).
    apply ak_add; auto; [apply C1|apply C2]; nra.
  Qed.
  Lemma tk_sub p M1 M2 a1 a2 e1 e2 : tk p M1 a1 e1 -> tk p M2 a2 e2 -> tk (p * (1 + u)) (M1 + M2) (@nsub V N a1 a2) (e1 - e2).
  Proof.
    intros T1 T2. pose proof (tk_pos _ _ _ _ _ T1). pose proof (tk_pos _ _ _ _ _ T2).
    pose proof (Rabs_triang e1 (- e2)) as TR. rewrite Rabs_Ropp in TR. fold (e1 - e2) in TR.
    destruct T1 as (P & L1 & B1 & C1), T2 as (_ & L2 & B2 & C2). split; [nra|]. split; [lra|]. split; [lra|]. intros C.
    assert (p * (M1 + M2) <= hi) by (apply (Rle_trans _ (p * (1 + u) * (M1 + M2))); auto; apply Rmult_le_compat_r; nra).
    apply ak_sub; auto; [apply C1|apply C2]; nra.
  Qed.
  (** adding to zero *)
  Lemma tk_zadd p M v e : tk p M v e -> tk (p * (1 + u)) M (@nadd V N nzero v) (0 + e).
  Proof.
    intros T. pose proof (tk_pos _ _ _ _ _ T). destruct T as (P & L & B & C). rewrite Rplus_0_l.
    split; [nra|]. split; [lra|]. split; [lra|]. intros H1.
    assert (H2 : p * M <= hi) by (apply (Rle_trans _ (p * (1 + u) * M)); auto; apply Rmult_le_compat_r; nra).
    specialize (C H2). pose proof (ak_abs _ _ _ _ _ C). destruct C as (F & A & _). destruct (r_zero _ _ RN) as [F0 E0].
    destruct (r_add _ _ RN nzero v F0 F) as [F' E]; rewrite E0, Rplus_0_l in *; [lra|].
    apply (ak_round _ _ (fval Fm v)); auto. eapply Rle_trans; [exact E|]. apply Rmult_le_compat_l; lra.
  Qed.
  Lemma mul_side p1 p2 M1 M2 : 1 <= p1 -> 1 <= p2 -> 1 <= M1 -> 0 <= M2 -> p1 * p2 * (1 + u) * (M1 * M2) <= hi ->
    p1 * p2 * (M1 * M2) <= hi /\ p2 * M2 <= hi.
  Proof.
    intros P1 P2 L1 L2 C. assert (1 <= p1 * p2) by nra. assert (M2 <= M1 * M2) by nra.
    assert (X : p1 * p2 * (M1 * M2) <= hi) by (apply (Rle_trans _ (p1 * p2 * (1 + u) * (M1 * M2))); auto; apply Rmult_le_compat_r; nra).
    split; auto. apply (Rle_trans _ (p1 * p2 * (M1 * M2))); auto. apply Rmult_le_compat; nra.
  Qed.
  Lemma tk_cmul p1 p2 M1 M2 c c' v e : ck p1 M1 c c' -> tk p2 M2 v e ->
    tk (p1 * p2 * (1 + u)) (M1 * M2) (@nmul V N c v) (c' * e).
  Proof.
    intros (P1 & L1 & A1) T2. pose proof (tk_pos _ _ _ _ _ T2). destruct T2 as (P2 & L2 & B2 & C2).
    assert (1 <= p1 * p2) by nra. assert (M2 <= M1 * M2) by nra.
    split; [nra|]. split; [lra|]. split.
    - rewrite Rabs_mult. apply Rmult_le_compat; auto using Rabs_pos. apply A1.
    - intros C. destruct (mul_side _ _ _ _ P1 P2 L1 H C) as [X Y]. apply ak_mul; auto; lra.
  Qed.
  Lemma tk_mulc p1 p2 M1 M2 c c' v e : tk p1 M1 v e -> ck p2 M2 c c' ->
    tk (p1 * p2 * (1 + u)) (M1 * M2) (@nmul V N v c) (e * c').
  Proof.
    intros T1 (P2 & L2 & A2). pose proof (tk_pos _ _ _ _ _ T1). destruct T1 as (P1 & L1 & B1 & C1).
    assert (1 <= p1 * p2) by nra. assert (M1 <= M1 * M2) by nra.
    split; [nra|]. split; [lra|]. split.
    - rewrite Rabs_mult. apply Rmult_le_compat; auto using Rabs_pos. apply A2.
    - intros C. destruct (mul_side p2 p1 M2 M1 P2 P1 L2 H) as [X Y].
      { replace (p2 * p1 * (1 + u) * (M2 * M1)) with (p1 * p2 * (1 + u) * (M1 * M2)) by ring. auto. }
      apply ak_mul; auto; try lra.
  Qed.
  Lemma tk_opp p M v e : tk p M v e -> tk p M (@nopp V N v) (- e).
  Proof.
    intros (P & L & B & C). split; auto. split; auto. rewrite Rabs_Ropp. split; auto. intros H. now apply ak_opp, C.
  Qed.

  (** ** constants *)
  Lemma ck_opp p M v e : ck p M v e -> ck p M (@nopp V N v) (- e).
  Proof. intros (P & Q & A). split; auto. split; auto. now apply ak_opp. Qed.
  Lemma ck_cos s i n : (0 < n)%nat -> (i <= 2 * n)%nat -> usz n -> ck (1 + tau) 1 (@ncos V N s i n) (@ncos R (RNum rh) s i n).
  Proof.
    intros H1 H2 H3. destruct (r_cos _ _ RN s i n H1 H2 H3) as [F E]. cbn [ncos RNum].
    split; [lra|]. split; [lra|]. split; auto. split; [lra|]. apply Rabs_le, COS_bound.
  Qed.
  Lemma ck_sin s i n : (0 < n)%nat -> (i <= 2 * n)%nat -> usz n -> ck (1 + tau) 1 (@nsin V N s i n) (@nsin R (RNum rh) s i n).
  Proof.
    intros H1 H2 H3. destruct (r_sin _ _ RN s i n H1 H2 H3) as [F E]. cbn [nsin RNum].
    split; [lra|]. split; [lra|]. split; auto. split; [lra|]. apply Rabs_le, SIN_bound.
  Qed.
  Lemma tau_hi : 2 * (1 + tau) <= hi.
  Proof. nra. Qed.

  (** ** functions on chunks *)
  Lemma approx_tkf f n phi G : 1 <= phi -> sqrt 2 <= G ->
    (forall x k, length x = n -> (k < n)%nat -> Forall (ffin Fm) x -> phi * (G * size Fm x) <= hi ->
      ffin Fm (nth k (f x) nzero) /\
      Rabs (fval Fm (nth k (f x) nzero) - dht_at (map (fval Fm) x) k) <= (phi - 1) * (G * size Fm x)) ->
    tkf Fm f n phi G.
  Proof.
    intros Hphi HG F p M a x Hp La Lx T k Hk.
    assert (S2 : 1 <= sqrt 2) by (rewrite <- sqrt_1; apply sqrt_le_1_alt; lra).
    assert (PM : forall j, (j < n)%nat -> 0 <= M j) by (intros; eapply tk_pos; eauto).
    assert (SM : 0 <= rsum n M) by (apply rsum_nonneg; auto).
    assert (M1 : forall j, (j < n)%nat -> M j <= rsum n M).
    { clear - PM. induction n; intros j Hj; [lia|]. cbn [rsum]. destruct (Nat.eq_dec j n) as [->|].
      - assert (0 <= rsum n M) by (apply rsum_nonneg; auto). lra.
      - pose proof (PM n ltac:(lia)). specialize (IHn ltac:(auto) j ltac:(lia)). lra. }
    assert (phiG : 1 <= phi * G) by nra.
    assert (KM : forall j, (j < n)%nat -> M j <= G * rsum n M) by (intros j Hj; pose proof (M1 j Hj); nra).
    assert (Vx : forall j, (j < n)%nat -> Rabs (nth j x 0) <= M j) by (intros j Hj; destruct (T j Hj) as (_ & _ & B & _); exact B).
    split; [nra|]. split; [pose proof (tk_lo _ _ _ _ _ (T k Hk)); pose proof (KM k Hk); lra|]. split.
    { unfold dht_at. rewrite Lx. eapply Rle_trans; [apply rsum_abs|]. rewrite <- rsum_scal. apply rsum_le. intros j Hj.
      rewrite Rabs_mult, Rmult_comm. apply Rmult_le_compat; try apply Rabs_pos; [pose proof (cas_le (ang n (j * k))); lra|auto]. }
    intros C.
    assert (CM : p * (phi * (G * rsum n M)) <= hi) by (now rewrite <- Rmult_assoc).
    assert (KA : forall j, (j < n)%nat -> ak p (M j) (nth j a nzero) (nth j x 0)).
    { intros j Hj. destruct (T j Hj) as (_ & _ & _ & B). apply B. apply (Rle_trans _ (p * (phi * (G * rsum n M)))); auto. apply Rmult_le_compat_l; [lra|].
      pose proof (KM j Hj). assert (0 <= G * rsum n M) by nra. nra. }
    assert (FA : Forall (ffin Fm) a).
    { apply Forall_forall. intros v Hv. destruct (In_nth a v nzero Hv) as (j & Hj & <-). apply KA. lia. }
    assert (Na : size Fm a <= p * rsum n M).
    { unfold size. rewrite La, <- rsum_scal. apply rsum_le. intros j Hj.
      rewrite (nth_indep _ _ (fval Fm nzero)) by (rewrite map_length; lia). rewrite map_nth.
      apply Rmax_lub; [apply ak_abs with (e := nth j x 0); auto|].
      pose proof (tk_lo _ _ _ _ _ (T j Hj)). pose proof (PM j Hj). nra. }
    assert (Sa : 0 <= size Fm a).
    { unfold size. apply rsum_nonneg. intros. eapply Rle_trans; [apply Rabs_pos|apply Rmax_l]. }
    destruct (F a k La Hk FA) as [Fk Ek].
    { apply (Rle_trans _ (p * (phi * (G * rsum n M)))); auto.
      replace (p * (phi * (G * rsum n M))) with (phi * (G * (p * rsum n M))) by ring.
      apply Rmult_le_compat_l; [lra|]. apply Rmult_le_compat_l; lra. }
    split; auto. split.
    - replace (fval Fm (nth k (f a) nzero) - dht_at x k) with
        ((fval Fm (nth k (f a) nzero) - dht_at (map (fval Fm) a) k) + (dht_at (map (fval Fm) a) k - dht_at x k)) by lra.
      eapply Rle_trans; [apply Rabs_triang|].
      assert (A1 : Rabs (fval Fm (nth k (f a) nzero) - dht_at (map (fval Fm) a) k) <= (phi - 1) * (G * (p * rsum n M))).
      { eapply Rle_trans; [exact Ek|]. apply Rmult_le_compat_l; [lra|]. apply Rmult_le_compat_l; lra. }
      assert (A2 : Rabs (dht_at (map (fval Fm) a) k - dht_at x k) <= G * ((p - 1) * rsum n M)).
      { unfold dht_at. rewrite map_length, La, Lx, <- rsum_sub. eapply Rle_trans; [apply rsum_abs|].
        rewrite <- !rsum_scal. apply rsum_le. intros j Hj.
        rewrite (nth_indep (map _ a) _ (fval Fm nzero)) by (rewrite map_length; lia). rewrite map_nth.
        replace (fval Fm (nth j a nzero) * cas (ang n (j * k)) - nth j x 0 * cas (ang n (j * k))) with
          (cas (ang n (j * k)) * (fval Fm (nth j a nzero) - nth j x 0)) by ring.
        rewrite Rabs_mult. apply Rmult_le_compat; try apply Rabs_pos; [pose proof (cas_le (ang n (j * k))); lra|].
        apply KA; auto. }
      nra.
    - unfold dht_at. rewrite Lx. eapply Rle_trans; [apply rsum_abs|]. rewrite <- rsum_scal. apply rsum_le. intros j Hj.
      rewrite Rabs_mult, Rmult_comm. apply Rmult_le_compat; try apply Rabs_pos; [pose proof (cas_le (ang n (j * k))); lra|auto].
  Qed.
  Lemma tkf_approx f n phi G x k : tkf Fm f n phi G -> length x = n -> (k < n)%nat -> Forall (ffin Fm) x -> phi * (G * size Fm x) <= hi ->
    ffin Fm (nth k (f x) nzero) /\
    Rabs (fval Fm (nth k (f x) nzero) - dht_at (map (fval Fm) x) k) <= (phi - 1) * (G * size Fm x).
  Proof.
    intros F L Hk Fx C.
    destruct (F 1 (fun j => Rmax (Rabs (nth j (map (fval Fm) x) 0)) (flo Fm)) x (map (fval Fm) x)) with (k := k) as (_ & _ & _ & A); auto; try lra.
    - now rewrite map_length.
    - intros j Hj. rewrite (nth_indep (map _ x) _ (fval Fm nzero)) by (rewrite map_length; lia). rewrite map_nth. apply tk_exact.
      rewrite Forall_forall in Fx. apply Fx, nth_In. lia.
    - rewrite Rmult_1_l in A. unfold size in *. rewrite L in *. destruct (A C) as (Fk & B & _). auto.
  Qed.

  (** ** expressions: [p] times a power of 1+u and of 1+tau *)
  Lemma fac_mono a b a' b' : (a <= a')%nat -> (b <= b')%nat -> fac a b <= fac a' b'.
  Proof.
    intros. unfold FloatProof.fac. apply Rmult_le_compat; try (apply pow_le; lra); apply Rle_pow; auto; lra.
  Qed.
  Lemma fac_1 a b : 1 <= fac a b.
  Proof. replace 1 with (fac 0 0) by (unfold FloatProof.fac; simpl; lra). apply fac_mono; lia. Qed.
  Lemma fac_S a b : fac a b * (1 + u) = fac (S a) b.
  Proof. unfold FloatProof.fac. simpl. ring. Qed.
  Lemma fac_mul a b a' b' : fac a b * fac a' b' = fac (a + a') (b + b').
  Proof. unfold FloatProof.fac. rewrite !pow_add. ring. Qed.
  Section Expr.
    Variable p : R.
    Hypothesis Hp : 1 <= p.
    Lemma pfac_1 a b : 1 <= p * fac a b.
    Proof. pose proof (fac_1 a b). replace 1 with (1 * 1) by lra. apply Rmult_le_compat; lra. Qed.
    Lemma tkn_mono a b a' b' M M' v e : (a <= a')%nat -> (b <= b')%nat -> M <= M' -> tkn p a b M v e -> tkn p a' b' M' v e.
    Proof.
      intros A B HM T. apply (tk_mono Fm (p * fac a b) _ M); auto.
      - apply pfac_1.
      - apply Rmult_le_compat_l; [lra|]. now apply fac_mono.
    Qed.
    Lemma tkn_in M v e : tk p M v e -> tkn p 0 0 M v e.
    Proof. unfold FloatProof.tkn, FloatProof.fac. simpl. rewrite !Rmult_1_r. auto. Qed.
    Lemma tkn_add a1 b1 a2 b2 M1 M2 v1 v2 e1 e2 : tkn p a1 b1 M1 v1 e1 -> tkn p a2 b2 M2 v2 e2 ->
      tkn p (S (Nat.max a1 a2)) (Nat.max b1 b2) (M1 + M2) (@nadd V N v1 v2) (e1 + e2).
    Proof.
      intros T1 T2. unfold FloatProof.tkn. rewrite <- fac_S, <- Rmult_assoc.
      apply tk_add; [apply (tkn_mono a1 b1 _ _ M1)|apply (tkn_mono a2 b2 _ _ M2)]; auto; try lia; lra.
    Qed.
    Lemma tkn_sub a1 b1 a2 b2 M1 M2 v1 v2 e1 e2 : tkn p a1 b1 M1 v1 e1 -> tkn p a2 b2 M2 v2 e2 ->
      tkn p (S (Nat.max a1 a2)) (Nat.max b1 b2) (M1 + M2) (@nsub V N v1 v2) (e1 - e2).
    Proof.
      intros T1 T2. unfold FloatProof.tkn. rewrite <- fac_S, <- Rmult_assoc.
      apply tk_sub; [apply (tkn_mono a1 b1 _ _ M1)|apply (tkn_mono a2 b2 _ _ M2)]; auto; try lia; lra.
    Qed.
    Lemma tkn_opp a b M v e : tkn p a b M v e -> tkn p a b M (@nopp V N v) (- e).
    Proof. apply tk_opp. Qed.
    Lemma tkn_mulc a b a' b' M M' v e c c' : tkn p a b M v e -> ckn a' b' M' c c' ->
      tkn p (S (a + a')) (b + b') (M * M') (@nmul V N v c) (e * c').
    Proof.
      intros T C. unfold FloatProof.tkn. rewrite <- fac_S, <- fac_mul, <- !Rmult_assoc.
      apply tk_mulc; auto.
    Qed.
    Lemma tkn_cmul a b a' b' M M' v e c c' : ckn a' b' M' c c' -> tkn p a b M v e ->
      tkn p (S (a + a')) (b + b') (M' * M) (@nmul V N c v) (c' * e).
    Proof.
      intros C T. unfold FloatProof.tkn. rewrite <- fac_S, <- fac_mul.
      replace (p * (fac a b * fac a' b' * (1 + u))) with (fac a' b' * (p * fac a b) * (1 + u)) by ring.
      apply tk_cmul; auto.
    Qed.
  End Expr.
  Lemma ckn_opp a b M v e : ckn a b M v e -> ckn a b M (@nopp V N v) (- e).
  Proof. apply ck_opp. Qed.

  Section Twiddles.
    Variables (i n : nat).
    Hypothesis H1 : (0 < n)%nat.
    Hypothesis H2 : (i <= 2 * n)%nat.
    Hypothesis H3 : usz n.
    Let e01 : fac 0 1 = 1 + tau.
    Proof. unfold FloatProof.fac. simpl. ring. Qed.
    Lemma ckn_cos s : ckn 0 1 1 (@ncos V N s i n) (@ncos R (RNum rh) s i n).
    Proof. unfold FloatProof.ckn. rewrite e01. now apply ck_cos. Qed.
    Lemma ckn_sin s : ckn 0 1 1 (@nsin V N s i n) (@nsin R (RNum rh) s i n).
    Proof. unfold FloatProof.ckn. rewrite e01. now apply ck_sin. Qed.
    Lemma ckn_dht : ckn 1 1 2 (@compute_dht_twiddle V N i n) (@compute_dht_twiddle R (RNum rh) i n).
    Proof.
      unfold compute_dht_twiddle, FloatProof.ckn. rewrite <- fac_S, e01. replace 2 with (1 + 1) by lra.
      pose proof (ck_cos false i n H1 H2 H3) as (P & _ & C). pose proof (ck_sin false i n H1 H2 H3) as (_ & _ & S).
      split; [nra|]. split; [lra|]. apply ak_add; auto. pose proof tau_hi. lra.
    Qed.
    Lemma ckn_dht_minus s : ckn 1 1 2 (@nsub V N (@ncos V N s i n) (@nsin V N s i n)) (@ncos R (RNum rh) s i n - @nsin R (RNum rh) s i n).
    Proof.
      unfold FloatProof.ckn. rewrite <- fac_S, e01. replace 2 with (1 + 1) by lra.
      pose proof (ck_cos s i n H1 H2 H3) as (P & _ & C). pose proof (ck_sin s i n H1 H2 H3) as (_ & _ & S).
      split; [nra|]. split; [lra|]. apply ak_sub; auto. pose proof tau_hi. lra.
    Qed.
    Lemma ckn_dft : ckn 0 1 1 (re (@compute_dft_twiddle_inverse V N i n)) (re (@compute_dft_twiddle_inverse R (RNum rh) i n)) /\
                    ckn 0 1 1 (im (@compute_dft_twiddle_inverse V N i n)) (im (@compute_dft_twiddle_inverse R (RNum rh) i n)).
    Proof. split; [apply ckn_cos|apply ckn_sin]. Qed.
  End Twiddles.
End Rounded.

Ltac leaf := first [eassumption | eapply ckn_opp; eassumption].
(** a computed expression against the exact one, operation by operation *)
Ltac expr :=
  lazymatch goal with
  | |- tkn _ _ _ _ _ (@nadd _ _ _ _) _ => eapply tkn_add; [eassumption|eassumption|expr|expr]
  | |- tkn _ _ _ _ _ (@nsub _ _ _ _) _ => eapply tkn_sub; [eassumption|eassumption|expr|expr]
  | |- tkn _ _ _ _ _ (@nopp _ _ _) _ => eapply tkn_opp; [eassumption|expr]
  | H : ckn _ _ _ _ ?c _ |- tkn _ _ _ _ _ (@nmul _ _ _ ?c) _ =>
      eapply tkn_mulc; [eassumption|expr|exact H]
  | H : ckn _ _ _ _ ?c _ |- tkn _ _ _ _ _ (@nmul _ _ ?c _) _ =>
      eapply tkn_cmul; [eassumption|exact H|expr]
  | |- tkn _ _ _ _ _ (@nmul _ _ (@nopp _ _ _) _) _ =>
      eapply tkn_cmul; [eassumption|leaf|expr]
  | |- tkn _ _ _ _ _ (@nmul _ _ _ (@nopp _ _ _)) _ =>
      eapply tkn_mulc; [eassumption|expr|leaf]
  | _ => eassumption
  end.
