(** * Proof of C72 *)
From Verif Require Import CostSpec Cost CostTree Lemmas FloatTree Straight NewSpec PropsParamProof.
From Verif Require Import TreeProof Radix4Proof RadersContract.
From Coq Require Import Reals Lra Lia Bool.
Local Open Scope nat_scope.

Lemma C72_trees_proof m t T (N : Num T) d es : in_range t -> @build T N m t = Ok d -> program m t es ->
  computable (inputs (tree_len t)) (ops t) es /\ Forall (deep (inputs (tree_len t)) (path t)) es.
Proof.
  intros I E P. pose proof (build_indifferent T expr N Num_expr m t) as H. rewrite E in H.
  destruct (@build expr Num_expr m t) as [e| | |] eqn:E'; try contradiction. clear H.
  destruct (Nat.eq_dec (tree_len t) 0) as [Z|Z].
  - destruct P as (L & _). rewrite Z in L. destruct es; [|discriminate]. split; [|constructor].
    apply (computable_le _ 0); [lia|]. apply computable_free. intros y [].
  - destruct (tree_cheap m t e I E' ltac:(lia)) as (f & O & C). apply transforms_ok in O.
    rewrite <- (program_run m t es e f P E' O). apply (C (map Var (seq 0 (tree_len t)))). now rewrite map_length, seq_length.
Qed.

(** ** ladders *)
Lemma splits_len k : tree_len (fst (splits k)) = 2 ^ (k + 3) /\ tree_len (snd (splits k)) = 2 ^ (k + 4).
Proof.
  induction k; [split; reflexivity|]. cbn [splits]. destruct (splits k) as [q h]. cbn [fst snd] in *. destruct IHk as [A B].
  replace (S k + 3) with (k + 4) by lia. split; [exact B|]. cbn [tree_len]. rewrite A.
  replace (S k + 4) with (k + 3 + 2) by lia. rewrite (Nat.pow_add_r 2 (k + 3) 2). reflexivity.
Qed.
Lemma C72_splits_proof k : let '(q, h) := splits k in
  (tree_len q = 2 ^ (k + 3) /\ ops q + 3 * tree_len q <= 2 * tree_len q * (k + 3) /\ path q + 2 <= 2 * (k + 3)) /\
  (tree_len h = 2 ^ (k + 4) /\ ops h + 3 * tree_len h <= 2 * tree_len h * (k + 4) /\ path h + 2 <= 2 * (k + 4)).
Proof.
  induction k; [cbn; lia|]. cbn [splits]. pose proof (splits_len k) as L. pose proof (splits_len (S k)) as L'. cbn [splits] in L'.
  destruct (splits k) as [q h]. cbn [fst snd] in *. destruct IHk as ((_ & A1 & A2) & _ & B1 & B2).
  replace (S k + 3) with (k + 4) in * by lia. replace (S k + 4) with (k + 5) in * by lia.
  split; [now repeat split|]. split; [apply L'|]. cbn [ops path tree_len].
  assert (H : tree_len h = 2 * tree_len q).
  { destruct L as [-> ->]. replace (k + 4) with (S (k + 3)) by lia. reflexivity. }
  rewrite H in *. split; [nia|lia].
Qed.
Lemma C72_fours_proof k : tree_len (fours k) = 16 * 4 ^ k /\ 12 * ops (fours k) + 32 = tree_len (fours k) * (51 * k + 59) /\ path (fours k) = 4 * k + 6.
Proof.
  induction k as [|k (A & B & C)]; [repeat split|]. cbn [fours tree_len ops path].
  replace (tree_len (fours k) / 2) with (8 * 4 ^ k) by (rewrite A; replace (16 * 4 ^ k) with (8 * 4 ^ k * 2) by lia; now rewrite Nat.div_mul).
  rewrite A in *. cbn [Nat.pow]. generalize dependent (4 ^ k). intros p A B. repeat split; nia.
Qed.

(** ** every composition without DhtNaive *)
Local Open Scope R_scope.
Lemma ln2_pos : 0 < ln 2.
Proof. rewrite <- ln_1. apply ln_increasing; lra. Qed.
Lemma log2_mul a b : (0 < a)%nat -> (0 < b)%nat -> log2 (a * b) = log2 a + log2 b.
Proof.
  intros A B. unfold log2. rewrite mult_INR, ln_mult by (now apply lt_0_INR). pose proof ln2_pos. field. lra.
Qed.
Lemma log2_le a b : (0 < a)%nat -> (a <= b)%nat -> log2 a <= log2 b.
Proof.
  intros A B. unfold log2. apply Rmult_le_compat_r; [apply Rlt_le, Rinv_0_lt_compat, ln2_pos|].
  destruct (Nat.eq_dec a b) as [->|N]; [lra|]. apply Rlt_le, ln_increasing; [now apply lt_0_INR|]. apply lt_INR. lia.
Qed.
Lemma log2_2 : log2 2 = 1.
Proof. unfold log2. simpl INR. pose proof ln2_pos. replace (1 + 1) with 2 by ring. field. lra. Qed.
Lemma log2_1 : log2 1 = 0.
Proof. unfold log2. simpl INR. rewrite ln_1. lra. Qed.
Lemma log2_4 : log2 4 = 2.
Proof. change 4%nat with (2 * 2)%nat. rewrite log2_mul, log2_2 by lia. lra. Qed.
Lemma log2_8 : log2 8 = 3.
Proof. change 8%nat with (2 * 4)%nat. rewrite log2_mul, log2_2, log2_4 by lia. lra. Qed.
Lemma log2_16 : log2 16 = 4.
Proof. change 16%nat with (2 * 8)%nat. rewrite log2_mul, log2_2, log2_8 by lia. lra. Qed.
Lemma log2_3 : 3 / 2 <= log2 3.
Proof.
  assert (H : 3 <= log2 9) by (rewrite <- log2_8; apply log2_le; lia).
  change 9%nat with (3 * 3)%nat in H. rewrite log2_mul in H by lia. lra.
Qed.
Lemma log2_1_le n : (2 <= n)%nat -> 1 <= log2 n.
Proof. intros. rewrite <- log2_2. apply log2_le; lia. Qed.

Definition bounded (t : tree) : Prop :=
  (tree_len t = 1%nat -> ops t = 0%nat /\ path t = 0%nat) /\
  ((2 <= tree_len t)%nat -> INR (ops t) + 4 * INR (tree_len t) <= 5 * 2 ^ nested t * INR (tree_len t) * log2 (tree_len t) /\
                           INR (path t) + 3 <= 6 * 2 ^ nested t * log2 (tree_len t)).
Lemma pow_max a b : (1 <= 2 ^ a) /\ 2 ^ a <= 2 ^ Nat.max a b /\ 2 ^ b <= 2 ^ Nat.max a b.
Proof. split; [apply pow_R1_Rle; lra|]. split; apply Rle_pow; try lra; lia. Qed.
Lemma INR_half h : INR (h / 2) <= INR h / 2.
Proof.
  assert (H : INR (2 * (h / 2)) <= INR h) by (apply le_INR; pose proof (Nat.div_mod h 2 ltac:(lia)); lia).
  rewrite mult_INR in H. change (INR 2) with (1 + 1) in H. lra.
Qed.
(** one mixed-radix step *)
Lemma mixed_bounded w ow pw h oh ph (M A B : R) : (0 < w)%nat -> (0 < h)%nat -> 1 <= A -> 1 <= B -> A <= M -> B <= M ->
  (w = 1%nat -> ow = 0%nat /\ pw = 0%nat) -> (h = 1%nat -> oh = 0%nat /\ ph = 0%nat) ->
  ((2 <= w)%nat -> INR ow + 4 * INR w <= 5 * A * INR w * log2 w /\ INR pw + 3 <= 6 * A * log2 w) ->
  ((2 <= h)%nat -> INR oh + 4 * INR h <= 5 * B * INR h * log2 h /\ INR ph + 3 <= 6 * B * log2 h) ->
  ((w * h)%nat = 1%nat -> mixed_ops w ow h oh = 0%nat /\ mixed_path w pw h ph = 0%nat) /\
  ((2 <= w * h)%nat -> INR (mixed_ops w ow h oh) + 4 * INR (w * h) <= 5 * M * INR (w * h) * log2 (w * h) /\
                     INR (mixed_path w pw h ph) + 3 <= 6 * M * log2 (w * h)).
Proof.
  intros Hw Hh A1 B1 AM BM W1 H1 W2 H2. split.
  - intros E. apply Nat.eq_mul_1 in E as [-> ->].
    destruct (W1 eq_refl) as [-> ->], (H1 eq_refl) as [-> ->]. split; reflexivity.
  - intros G.
    assert (LW : 0 <= log2 w) by (rewrite <- log2_1; apply log2_le; lia).
    assert (LH : 0 <= log2 h) by (rewrite <- log2_1; apply log2_le; lia).
    assert (PW : 1 <= INR w) by (apply (le_INR 1); lia). assert (PH : 1 <= INR h) by (apply (le_INR 1); lia).
    destruct (Nat.eq_dec w 1) as [->|NW].
    { destruct (W1 eq_refl) as [-> ->]. rewrite Nat.mul_1_l in *. destruct (H2 G) as [X Y].
      replace (mixed_ops 1 0 h oh) with oh by (unfold mixed_ops; simpl; lia).
      replace (mixed_path 1 0 h ph) with ph by (unfold mixed_path; simpl; lia). split.
      - apply (Rle_trans _ _ _ X). do 2 (apply Rmult_le_compat_r; [lra|]). lra.
      - apply (Rle_trans _ _ _ Y). apply Rmult_le_compat_r; lra. }
    destruct (Nat.eq_dec h 1) as [->|NH].
    { destruct (H1 eq_refl) as [-> ->]. rewrite Nat.mul_1_r in *. destruct (W2 G) as [X Y].
      replace (mixed_ops w ow 1 0) with ow by (unfold mixed_ops; simpl; lia).
      replace (mixed_path w pw 1 0) with pw by (unfold mixed_path; rewrite orb_true_r; simpl; lia). split.
      - apply (Rle_trans _ _ _ X). do 2 (apply Rmult_le_compat_r; [lra|]). lra.
      - apply (Rle_trans _ _ _ Y). apply Rmult_le_compat_r; lra. }
    destruct (W2 ltac:(lia)) as [X Y]. destruct (H2 ltac:(lia)) as [X' Y'].
    rewrite log2_mul by lia. unfold mixed_ops, mixed_path.
    destruct (Nat.leb_spec w 1); [lia|]. destruct (Nat.leb_spec h 1); [lia|]. cbn [orb].
    rewrite !plus_INR, !mult_INR, minus_INR by lia. pose proof (INR_half h) as Q. pose proof (pos_INR (h / 2)).
    replace (INR 8) with 8 by (simpl; ring). replace (INR 1) with 1 by reflexivity. replace (INR 3) with 3 by (simpl; ring). split.
    + assert (E1 : 5 * A * INR w * log2 w <= 5 * M * INR w * log2 w) by (do 2 (apply Rmult_le_compat_r; [lra|]); lra).
      assert (E2 : 5 * B * INR h * log2 h <= 5 * M * INR h * log2 h) by (do 2 (apply Rmult_le_compat_r; [lra|]); lra).
      assert (F1 : INR h * (INR ow + 4 * INR w) <= INR h * (5 * M * INR w * log2 w)) by (apply Rmult_le_compat_l; lra).
      assert (F2 : INR w * (INR oh + 4 * INR h) <= INR w * (5 * M * INR h * log2 h)) by (apply Rmult_le_compat_l; lra).
      assert (F3 : 8 * (INR w - 1) * INR (h / 2) <= 4 * INR w * INR h).
      { replace (4 * INR w * INR h) with (8 * INR w * (INR h / 2)) by field. apply Rmult_le_compat; lra. }
      replace (5 * M * (INR w * INR h) * (log2 w + log2 h)) with (INR h * (5 * M * INR w * log2 w) + INR w * (5 * M * INR h * log2 h)) by ring.
      lra.
    + assert (E1 : 6 * A * log2 w <= 6 * M * log2 w) by (apply Rmult_le_compat_r; lra).
      assert (E2 : 6 * B * log2 h <= 6 * M * log2 h) by (apply Rmult_le_compat_r; lra). lra.
Qed.
Lemma fly_bounded n o p : (INR o + 4 * INR n <= 5 * INR n * log2 n) -> (INR p + 3 <= 6 * log2 n) -> (2 <= n)%nat ->
  (n = 1%nat -> o = 0%nat /\ p = 0%nat) /\
  ((2 <= n)%nat -> INR o + 4 * INR n <= 5 * 2 ^ 0 * INR n * log2 n /\ INR p + 3 <= 6 * 2 ^ 0 * log2 n).
Proof. intros A B C. split; [lia|]. intros _. simpl (2 ^ 0). rewrite !Rmult_1_r. split; lra. Qed.
Ltac inr := repeat match goal with |- context [INR ?k] => let v := eval vm_compute in (Z.of_nat k) in let z := eval vm_compute in (Z.eqb v v) in constr_eq z true; replace (INR k) with (IZR v) by (rewrite INR_IZR_INZ; reflexivity) end.
Ltac leaf n := 
  let L := fresh in assert (L : (2 <= n)%nat) by lia; apply (fly_bounded n); [| |exact L].

Lemma bounded_tree m (d : Dht expr) t : in_range t -> naive_free t -> @build expr Num_expr m t = Ok d -> (0 < tree_len t)%nat -> bounded t.
Proof.
  pose proof log2_2 as l2. pose proof log2_3 as l3. pose proof log2_4 as l4. pose proof log2_8 as l8. pose proof log2_16 as l16.
  assert (l5 : 2 <= log2 5) by (rewrite <- log2_4; apply log2_le; lia).
  assert (l6 : 2 <= log2 6) by (rewrite <- log2_4; apply log2_le; lia).
  assert (l9 : 3 <= log2 9) by (rewrite <- log2_8; apply log2_le; lia).
  revert d. induction t; intros D I F B Hn; cbn [build in_range tree_len naive_free] in *; try contradiction;
    try (destruct (build m t) as [d| | |] eqn:B0; cbn [bind] in B; try discriminate);
    try (destruct (build m t1) as [d1| | |] eqn:B1; cbn [bind] in B; try discriminate;
         destruct (build m t2) as [d2| | |] eqn:B2; cbn [bind] in B; try discriminate; destruct I as [I1 I2]; destruct F as [F1 F2]);
    unfold bounded; cbn [tree_len ops path nested].
  - split; [auto|lia].
  - leaf 2%nat; inr; lra.
  - leaf 3%nat; inr; lra.
  - leaf 4%nat; inr; lra.
  - leaf 5%nat; inr; lra.
  - leaf 6%nat; inr; lra.
  - leaf 8%nat; inr; lra.
  - leaf 9%nat; inr; lra.
  - leaf 16%nat; inr; lra.
  - assert (P1 : (0 < tree_len t1)%nat) by nia. assert (P2 : (0 < tree_len t2)%nat) by nia.
    destruct (IHt1 d1 I1 F1 eq_refl P1) as [X1 X2]. destruct (IHt2 d2 I2 F2 eq_refl P2) as [Y1 Y2].
    destruct (pow_max (nested t1) (nested t2)) as (Q1 & Q2 & Q3). pose proof (proj1 (pow_max (nested t2) 0)).
    now apply (mixed_bounded _ _ _ _ _ _ (2 ^ Nat.max (nested t1) (nested t2)) (2 ^ nested t1) (2 ^ nested t2)).
  - assert (P : (0 < tree_len t)%nat) by lia. destruct (IHt d I F eq_refl P) as [X1 X2]. split; [lia|]. intros _.
    set (h := tree_len t) in *. rewrite (log2_mul 2 h), log2_2 by lia. rewrite !plus_INR, !mult_INR. inr. pose proof (INR_half h). pose proof (proj1 (pow_max (nested t) 0)) as Q.
    set (A := 2 ^ nested t) in *. assert (1 <= INR h) by (apply (le_INR 1); lia).
    destruct (Nat.eq_dec h 1) as [E|N].
    + destruct (X1 E) as [-> ->]. rewrite E in *. rewrite log2_1. change (1 / 2)%nat with 0%nat. inr. split; lra.
    + destruct (X2 ltac:(lia)) as [Y1 Y2]. assert (A * INR h >= INR h) by nra. split; [|lra].
      replace (5 * A * (2 * INR h) * (1 + log2 h)) with (2 * (5 * A * INR h * log2 h) + 10 * (A * INR h)) by ring. lra.
  - assert (P : (0 < tree_len t)%nat) by lia. destruct (IHt d I F eq_refl P) as [X1 X2].
    pose proof (proj1 (pow_max (nested t) 0)) as Q.
    apply (mixed_bounded 3 8 4 _ _ _ (2 ^ nested t) 1 (2 ^ nested t)); auto; try lra; try lia; [].
    intros _. inr. lra.
  - assert (P : (0 < tree_len t)%nat) by lia. destruct (IHt d I F eq_refl P) as [X1 X2]. split; [lia|]. intros _.
    set (h := tree_len t) in *. rewrite (log2_mul 4 h), log2_4 by lia. rewrite !plus_INR, !mult_INR. inr. pose proof (INR_half h). pose proof (proj1 (pow_max (nested t) 0)) as Q.
    set (A := 2 ^ nested t) in *. assert (1 <= INR h) by (apply (le_INR 1); lia).
    destruct (Nat.eq_dec h 1) as [E|N].
    + destruct (X1 E) as [-> ->]. rewrite E in *. rewrite log2_1. change (1 / 2)%nat with 0%nat. inr. split; lra.
    + destruct (X2 ltac:(lia)) as [Y1 Y2]. assert (A * INR h >= INR h) by nra. split; [|lra].
      replace (5 * A * (4 * INR h) * (2 + log2 h)) with (4 * (5 * A * INR h * log2 h) + 40 * (A * INR h)) by ring. lra.
  - assert (P : (0 < tree_len t)%nat) by lia. destruct (IHt d I F eq_refl P) as [X1 X2].
    pose proof (proj1 (pow_max (nested t) 0)) as Q.
    apply (mixed_bounded 5 24 5 _ _ _ (2 ^ nested t) 1 (2 ^ nested t)); auto; try lra; try lia; [].
    intros _. inr. lra.
  - assert (P : (0 < tree_len t)%nat) by lia. destruct (IHt d I F eq_refl P) as [X1 X2].
    pose proof (proj1 (pow_max (nested t) 0)) as Q.
    apply (mixed_bounded 6 28 7 _ _ _ (2 ^ nested t) 1 (2 ^ nested t)); auto; try lra; try lia; [].
    intros _. inr. lra.
  - destruct (split_radix_len _ _ _ B) as (L1 & L2 & L3 & L4).
    assert (E1 := build_len m t1 d1 B1). assert (E2 := build_len m t2 d2 B2).
    assert (P1 : (0 < tree_len t1)%nat) by lia. assert (P2 : (0 < tree_len t2)%nat) by lia.
    destruct (IHt1 d1 I1 F1 eq_refl P1) as [X1 X2]. destruct (IHt2 d2 I2 F2 eq_refl P2) as [_ Y2].
    split; [lia|]. intros _. set (q := tree_len t1) in *. assert (Eh : tree_len t2 = (2 * q)%nat) by lia. rewrite Eh in *.
    destruct (Y2 ltac:(lia)) as [Y3 Y4]. clear Y2.
    rewrite (Nat.mul_comm q 4), (log2_mul 4 q), log2_4 by lia. rewrite (log2_mul 2 q), log2_2 in Y3, Y4 by lia.
    destruct (pow_max (nested t1) (nested t2)) as (Q1 & Q2 & Q3). pose proof (proj1 (pow_max (nested t2) 0)) as Q4.
    set (M := 2 ^ Nat.max (nested t1) (nested t2)) in *. set (A := 2 ^ nested t1) in *. set (A' := 2 ^ nested t2) in *.
    rewrite mult_INR in Y3. rewrite !plus_INR, !mult_INR. inr. replace (INR 2) with 2 in Y3 by (simpl; ring).
    assert (1 <= INR q) by (apply (le_INR 1); lia).
    assert (LQ : 0 <= log2 q) by (rewrite <- log2_1; apply log2_le; lia).
    assert (K1 : INR (ops t1) + 4 * INR q <= 5 * M * INR q * log2 q + 4 * INR q /\ INR (path t1) <= 6 * M * log2 q).
    { destruct (Nat.eq_dec q 1) as [E|N].
      - destruct (X1 E) as [-> ->]. rewrite E, log2_1. inr. split; lra.
      - destruct (X2 ltac:(lia)) as [Z1 Z2].
        assert (5 * A * INR q * log2 q <= 5 * M * INR q * log2 q) by (do 2 (apply Rmult_le_compat_r; [lra|]); lra).
        assert (6 * A * log2 q <= 6 * M * log2 q) by (apply Rmult_le_compat_r; lra). split; lra. }
    destruct K1 as [K1 K2].
    assert (K3 : 5 * A' * (2 * INR q) * (1 + log2 q) <= 5 * M * (2 * INR q) * (1 + log2 q)) by (do 2 (apply Rmult_le_compat_r; [lra|]); lra).
    assert (K4 : 6 * A' * (1 + log2 q) <= 6 * M * (1 + log2 q)) by (apply Rmult_le_compat_r; lra).
    split.
    + assert (M * INR q >= INR q) by nra.
      replace (5 * M * (4 * INR q) * (2 + log2 q)) with (5 * M * (2 * INR q) * (1 + log2 q) + 2 * (5 * M * INR q * log2 q) + 30 * (M * INR q)) by ring.
      lra.
    + replace (6 * M * (2 + log2 q)) with (6 * M * log2 q + 12 * M) by ring.
      destruct (Nat.max_spec (1 + path t2) (4 + path t1)) as [[_ ->]|[_ ->]]; rewrite plus_INR; inr; lra.
  - destruct (radix4_pow _ _ B) as [k E]. subst len.
    assert (Hk : (k <= 6)%nat) by (apply (Nat.pow_le_mono_r_iff 2); [lia|exact I]).
    assert (l32 : log2 32 = 5) by (change 32%nat with (2 * 16)%nat; rewrite log2_mul by lia; lra).
    assert (l64 : log2 64 = 6) by (change 64%nat with (4 * 16)%nat; rewrite log2_mul by lia; lra).
    destruct k as [|[|[|[|[|[|[|k]]]]]]]; [..|exfalso; lia].
    + simpl Nat.pow. split; [auto|lia].
    + change (2 ^ 1)%nat with 2%nat. leaf 2%nat; inr; lra.
    + change (2 ^ 2)%nat with 4%nat. leaf 4%nat; inr; lra.
    + change (2 ^ 3)%nat with 8%nat. leaf 8%nat; inr; lra.
    + change (2 ^ 4)%nat with 16%nat. leaf 16%nat; inr; lra.
    + change (2 ^ 5)%nat with 32%nat. leaf 32%nat; inr; lra.
    + change (2 ^ 6)%nat with 64%nat. leaf 64%nat; inr; lra.
  - destruct I as [I Hr]. destruct (raders_prime _ _ _ B) as [P L].
    assert (E := build_len m t d B0). rewrite E in L. split; [lia|]. intros _.
    destruct (IHt d I F eq_refl ltac:(lia)) as [_ X2]. destruct (X2 L) as [Y1 Y2]. clear X2.
    set (n := tree_len t) in *. pose proof (proj1 (pow_max (nested t) 0)) as Q. cbn [pow]. set (A := 2 ^ nested t) in *.
    assert (2 <= INR n) by (apply (le_INR 2); lia).
    assert (LN : 1 <= log2 n) by (now apply log2_1_le).
    assert (LE : log2 n <= log2 (n + 1)) by (apply log2_le; lia).
    rewrite !plus_INR, !mult_INR. inr.
    assert (G : INR n * log2 n + 1 <= (INR n + 1) * log2 (n + 1)) by nra.
    assert (G' : A * (INR n * log2 n + 1) <= A * ((INR n + 1) * log2 (n + 1))) by (apply Rmult_le_compat_l; lra).
    assert (G2 : A * log2 n <= A * log2 (n + 1)) by (apply Rmult_le_compat_l; lra).
    split; lra.
Qed.
Lemma C72_fast_proof m t T (N : Num T) d : in_range t -> naive_free t -> @build T N m t = Ok d -> (0 < tree_len t)%nat ->
  INR (ops t) <= 5 * 2 ^ nested t * INR (tree_len t) * log2 (tree_len t) /\ INR (path t) <= 6 * 2 ^ nested t * log2 (tree_len t).
Proof.
  intros I F E Hn. pose proof (build_indifferent T expr N Num_expr m t) as H. rewrite E in H.
  destruct (@build expr Num_expr m t) as [e| | |] eqn:E'; try contradiction. clear H.
  destruct (bounded_tree m e t I F E' Hn) as [A B]. destruct (Nat.eq_dec (tree_len t) 1) as [E1|N1].
  - destruct (A E1) as [-> ->]. rewrite E1, log2_1. simpl. lra.
  - destruct (B ltac:(lia)) as [C D]. pose proof (pos_INR (tree_len t)). lra.
Qed.

(** ** the counts of the leaves are exact *)
Local Open Scope nat_scope.
Definition argument (e p : expr) : bool :=
  match p with Plus a b | Minus a b | Times a b => same e a || same e b | Neg a => same e a | _ => false end.
Definition compound (e : expr) : bool := match e with Var _ => false | _ => true end.
Fixpoint reached (k : nat) (ys seen l : list expr) : bool :=
  match l with
  | [] => true
  | e :: l => negb (isfix k e) && compound e && (mem e ys || existsb (argument e) seen) && negb (mem e l) && reached k ys (e :: seen) l
  end.
Lemma fixed_isfix k e : fixed e -> isfix k e = true.
Proof. induction e; simpl; try tauto; intros; rewrite ?andb_true_iff; tauto. Qed.
Lemma same_refl e : same e e = true.
Proof. induction e; simpl; unfold eqb_nat3; rewrite ?Nat.eqb_refl, ?eqb_reflx, ?IHe, ?IHe1, ?IHe2; auto. Qed.
Lemma in_mem e l : In e l -> mem e l = true.
Proof. intros H. apply existsb_exists. exists e. split; auto using same_refl. Qed.
Lemma operand_in k L e : isfix k e = false -> compound e = true -> operand (inputs k) L e -> In e L.
Proof.
  intros F C [H|[H|H]]; auto.
  - apply (fixed_isfix k) in H. congruence.
  - unfold inputs in H. apply in_map_iff in H as (j & <- & _). discriminate.
Qed.
Lemma reached_in k ys L : Forall (operation (inputs k) L) L -> Forall (operand (inputs k) L) ys ->
  forall l seen, incl seen L -> reached k ys seen l = true -> NoDup l /\ incl l L.
Proof.
  intros O Y. rewrite Forall_forall in *. induction l as [|e l IH]; intros seen S R; [split; [constructor|intros ? []]|].
  cbn [reached] in R. rewrite !andb_true_iff, !negb_true_iff in R. destruct R as ((((F & C) & A) & D) & R).
  assert (E : In e L).
  { apply orb_true_iff in A as [A|A].
    - apply mem_in in A. apply (operand_in k); auto.
    - apply existsb_exists in A as (p & P & A). specialize (O p (S p P)).
      destruct p; simpl in A; try discriminate; try (apply orb_true_iff in A as [A|A]); apply same_eq in A; subst e; simpl in O; apply (operand_in k); tauto. }
  destruct (IH (e :: seen)) as [N J]; auto.
  - intros z [<-|Z]; auto.
  - split; [|intros z [<-|Z]; auto]. constructor; auto. intros Z. apply in_mem in Z. congruence.
Qed.
Lemma deep_depth k n e : deep (inputs k) n e -> depthb k e <= n.
Proof.
  induction 1; simpl.
  - destruct H as [H|H].
    + apply (fixed_isfix k) in H. destruct e; simpl in *; rewrite ?H; lia.
    + unfold inputs in H. apply in_map_iff in H as (j & <- & _). simpl. destruct (k <=? j); lia.
  - destruct (isfix k a && isfix k b); lia.
  - destruct (isfix k a && isfix k b); lia.
  - destruct (isfix k a && isfix k b); lia.
  - destruct (isfix k a); lia.
Qed.
Definition exact_pattern (k c n : nat) (es : list expr) : bool :=
  pattern k c n es && (c =? length (all_nodes k es)) && reached k es [] (all_nodes k es) && ((n =? 0) || existsb (fun e => n <=? depthb k e) es).
Lemma exact_ok k c n es : Forall (combination k) es -> exact_pattern k c n es = true ->
  (forall c', computable (inputs k) c' es <-> c <= c') /\ (forall n', Forall (deep (inputs k) n') es <-> n <= n').
Proof.
  unfold exact_pattern. rewrite !andb_true_iff, Nat.eqb_eq. intros V [[[P E] R] D].
  assert (Lk : length (inputs k) = k) by (unfold inputs; now rewrite map_length, seq_length).
  rewrite <- Lk in P at 1. apply pattern_all in P as [P1 P2].
  assert (Q : map (eval (inputs k)) es = es) by (now apply evals_vars). rewrite Q in *. split; intros z; split; intros H.
  - destruct H as (L & A & B & C). destruct (reached_in k es L B C _ [] ltac:(intros ? []) R) as [N J].
    pose proof (NoDup_incl_length N J). lia.
  - eapply computable_le; eauto.
  - apply orb_true_iff in D as [D|D]; [apply Nat.eqb_eq in D; lia|]. apply existsb_exists in D as (e & I & D). apply Nat.leb_le in D.
    rewrite Forall_forall in H. pose proof (deep_depth _ _ _ (H e I)). lia.
  - eapply Forall_impl; [|exact P2]. intros e. now apply deep_mono.
Qed.
Lemma C72_leaves_proof m t T (N : Num T) d es : in_range t -> leaf t -> @build T N m t = Ok d -> program m t es ->
  (forall c, computable (inputs (tree_len t)) c es <-> ops t <= c) /\
  (forall n, Forall (deep (inputs (tree_len t)) n) es <-> path t <= n).
Proof.
  intros I F E P. pose proof (build_indifferent T expr N Num_expr m t) as H. rewrite E in H.
  destruct (@build expr Num_expr m t) as [e| | |] eqn:E'; try contradiction. clear H d E.
  apply exact_ok; [apply P|].
  assert (K : exists f, transforms e f /\ exact_pattern (tree_len t) (ops t) (path t) (f (map Var (seq 0 (tree_len t)))) = true).
  { destruct t; cbn [leaf build] in *; try contradiction; try (injection E' as <-).
    - exists (fun x => x). split; [apply transforms_ok, butterfly1_ok|reflexivity].
    - eexists. split; [apply transforms_ok, butterfly_ok; [lia|apply bf2_kernel]|vm_compute; reflexivity].
    - eexists. split; [apply transforms_ok, butterfly_ok; [lia|apply bf3_kernel]|vm_compute; reflexivity].
    - eexists. split; [apply transforms_ok, butterfly_ok; [lia|apply bf4_kernel]|vm_compute; reflexivity].
    - eexists. split; [apply transforms_ok, butterfly_ok; [lia|apply bf5_kernel]|vm_compute; reflexivity].
    - eexists. split; [apply transforms_ok, butterfly_ok; [lia|apply bf6_kernel]|vm_compute; reflexivity].
    - eexists. split; [apply transforms_ok, butterfly_ok; [lia|apply bf8_kernel]|vm_compute; reflexivity].
    - eexists. split; [apply transforms_ok, butterfly_ok; [lia|apply bf9_kernel]|vm_compute; reflexivity].
    - eexists. split; [apply transforms_ok, butterfly_ok; [lia|apply bf16_kernel]|vm_compute; reflexivity].
    - cbn [in_range] in I. destruct (radix4_pow _ _ E') as [k ->]. destruct (radix4_ok (T := expr) k) as (d' & E'' & O & _).
      rewrite E' in E''. injection E'' as <-. eexists. split; [apply transforms_ok; exact O|].
      assert (Hk : k <= 6) by (apply (Nat.pow_le_mono_r_iff 2); [lia|exact I]).
      clear - Hk. do 7 (destruct k as [|k]; [vm_compute; reflexivity|]). exfalso. lia. }
  destruct K as (f & T' & K). now rewrite (program_run m t es e f P E' T') in K.
Qed.
