(** * SplitRadix over exact reals *)
From Verif Require Import Lemmas Contract SplitRadixProof RealDHT ButterfliesReal.
From Coq Require Import Reals Lra Lia List Arith.
Import ListNotations.
Local Open Scope R_scope.

Section Split.
  Variables (q : nat) (x : list R).
  Hypothesis qp : (0 < q)%nat.
  Hypothesis Lx : length x = (q * 4)%nat.
  Context (cst : R).
  Local Hint Extern 0 (Num R) => exact (RNum cst) : typeclass_instances.
  Variables fq fh : list R -> list R.
  Hypothesis fq_spec : forall y, length y = q -> fq y = dht_spec y.
  Hypothesis fh_spec : forall y, length y = (q * 2)%nat -> fh y = dht_spec y.

  Lemma nth_dht_of_map n (u : nat -> R) k : (k < n)%nat ->
    nth k (dht_spec (map u (seq 0 n))) 0 = rsum n (fun r => u r * cas (ang n (r * k))).
  Proof.
    intros Hq. rewrite nth_dht_spec by (now rewrite map_length, seq_length).
    unfold dht_at. rewrite map_length, seq_length. apply rsum_ext. intros r Hr. now rewrite nth_map_seq.
  Qed.

  Lemma split_even m : (m < q * 2)%nat -> nth m (fh (split_evens q x)) 0 = dht_at x (2 * m).
  Proof.
    intros Hm. unfold split_evens. rewrite fh_spec by (now rewrite map_length, seq_length).
    rewrite nth_dht_of_map by auto. unfold dht_at. rewrite Lx.
    replace (q * 4)%nat with (q * 2 + q * 2)%nat at 1 by lia. rewrite rsum_app, <- rsum_add.
    apply rsum_ext. intros j Hj. cbn [nadd nzero RNum].
    assert (E : ang (q * 4) (j * (2 * m)) = ang (q * 2) (j * m)).
    { replace (q * 4)%nat with (2 * (q * 2))%nat by lia. replace (j * (2 * m))%nat with (2 * (j * m))%nat by lia. apply ang_scale; lia. }
    assert (E2 : ang (q * 4) ((q * 2 + j) * (2 * m)) = ang (q * 4) (j * (2 * m)) + 2 * INR m * PI).
    { rewrite Nat.mul_add_distr_r, ang_add, Rplus_comm. f_equal. rewrite <- ang_turns with (n := (q * 4)%nat) by lia. f_equal. lia. }
    rewrite E2, E. unfold cas. rewrite cos_turn, sin_turn. lra.
  Qed.

  (** the odd outputs 4m+p, p = 1 or 3 *)
  Definition gam (p m c : nat) : R := ang (q * 4) (p * c) + ang q (c * m).

  Lemma split_shift p m t i : (p < 4)%nat -> (t < 4)%nat ->
    cos (ang (q * 4) ((q * t + i) * (4 * m + p))) = cos (gam p m i + ang 4 (t * p)) /\
    sin (ang (q * 4) ((q * t + i) * (4 * m + p))) = sin (gam p m i + ang 4 (t * p)).
  Proof.
    intros _ _. assert (E : ang (q * 4) ((q * t + i) * (4 * m + p)) = gam p m i + ang 4 (t * p) + 2 * INR (t * m) * PI).
    { unfold gam. rewrite <- ang_turns with (n := (q * 4)%nat) by lia.
      assert (E1 : ang q (i * m) = ang (q * 4) (4 * (i * m))) by (rewrite (Nat.mul_comm q 4); symmetry; apply ang_scale; lia).
      assert (E2 : ang 4 (t * p) = ang (q * 4) (q * (t * p))) by (symmetry; apply ang_scale; lia).
      rewrite E1, E2, <- !ang_add. f_equal. lia. }
    rewrite E, cos_turn, sin_turn. auto.
  Qed.

  Let a i := split_diff0 q x i.
  Let b i := split_diff1 q x i.

  Lemma cs_quarter t : cos (t + ang 4 1) = - sin t /\ sin (t + ang 4 1) = cos t.
  Proof.
    replace (ang 4 1) with (PI / 2) by (unfold ang; simpl; field).
    rewrite cos_plus, sin_plus, cos_PI2, sin_PI2. split; lra.
  Qed.
  Lemma cs_steps t n : cos (t + ang 4 (S n)) = - sin (t + ang 4 n) /\ sin (t + ang 4 (S n)) = cos (t + ang 4 n).
  Proof. replace (S n) with (n + 1)%nat by lia. rewrite ang_add, <- Rplus_assoc. apply cs_quarter. Qed.

  Lemma cas_step t n : cas (t + ang 4 (S n)) = cas (- (t + ang 4 n)) /\ cas (- (t + ang 4 (S n))) = - cas (t + ang 4 n).
  Proof. rewrite !cas_neg. unfold cas. destruct (cs_steps t n) as [-> ->]. split; lra. Qed.

  Lemma split_odd_sum p m sg : (p = 1%nat /\ sg = 1) \/ (p = 3%nat /\ sg = -1) ->
    dht_at x (4 * m + p) = rsum q (fun i => a i * cas (gam p m i) + sg * b i * cas (- gam p m i)).
  Proof.
    intros Hp. unfold dht_at. rewrite Lx.
    replace (q * 4)%nat with (q + (q + (q + q)))%nat at 1 by lia.
    rewrite !rsum_app, <- !rsum_add. apply rsum_ext. intros i Hi.
    assert (C : forall t, (t < 4)%nat -> cas (ang (q * 4) ((q * t + i) * (4 * m + p))) = cas (gam p m i + ang 4 (t * p))).
    { intros t Ht. unfold cas. destruct (split_shift p m t i ltac:(destruct Hp as [[]|[]]; lia) Ht) as [-> ->]. reflexivity. }
    pose proof (C 0%nat ltac:(lia)) as C0. pose proof (C 1%nat ltac:(lia)) as C1.
    pose proof (C 2%nat ltac:(lia)) as C2. pose proof (C 3%nat ltac:(lia)) as C3.
    replace (q * 0 + i)%nat with i in C0 by lia. replace (q * 1 + i)%nat with (q + i)%nat in C1 by lia.
    replace (q * 2 + i)%nat with (q + (q + i))%nat in C2 by lia. replace (q * 3 + i)%nat with (q + (q + (q + i)))%nat in C3 by lia.
    rewrite C0, C1, C2, C3. unfold a, b, split_diff0, split_diff1. cbn [nsub nzero RNum].
    replace (q * 2 + i)%nat with (q + (q + i))%nat by lia. replace (q * 3 + i)%nat with (q + (q + (q + i)))%nat by lia.
    set (g := gam p m i).
    assert (Z : g + ang 4 0 = g) by (rewrite ang_0; lra).
    assert (S : forall n, cas (g + ang 4 (S (S n))) = - cas (g + ang 4 n)).
    { intros n. destruct (cas_step g (Datatypes.S n)) as [-> _]. now destruct (cas_step g n) as [_ ->]. }
    assert (S1 : cas (g + ang 4 1) = cas (- g)).
    { destruct (cas_step g 0) as [-> _]. now rewrite Z. }
    destruct Hp as [[-> ->]|[-> ->]]; simpl (_ * _)%nat; rewrite !S, S1, Z; lra.
  Qed.

  Lemma gam_mirror p m c : (c <= q)%nat ->
    cos (gam p m (q - c)) = cos (ang 4 p - gam p m c) /\ sin (gam p m (q - c)) = sin (ang 4 p - gam p m c).
  Proof.
    intros Hc. assert (E : gam p m (q - c) = ang 4 p - gam p m c + 2 * INR m * PI).
    { unfold gam. rewrite <- ang_turns with (n := q) by lia.
      assert (E1 : ang 4 p = ang (q * 4) (q * p)) by (symmetry; apply ang_scale; lia).
      assert (E2 : ang (q * 4) (p * (q - c)) + ang (q * 4) (p * c) = ang (q * 4) (q * p)) by (rewrite <- ang_add; f_equal; nia).
      assert (E3 : ang q ((q - c) * m) + ang q (c * m) = ang q (m * q)) by (rewrite <- ang_add; f_equal; nia).
      lra. }
    rewrite E, cos_turn, sin_turn. auto.
  Qed.

  Lemma quarter_minus p sg g : (p = 1%nat /\ sg = 1) \/ (p = 3%nat /\ sg = -1) ->
    cos (ang 4 p - g) = sg * sin g /\ sin (ang 4 p - g) = sg * cos g.
  Proof.
    assert (P1 : ang 4 1 = PI / 2) by (unfold ang; simpl; field).
    assert (P3 : ang 4 3 = 3 * (PI / 2)) by (unfold ang; simpl; field).
    intros [[-> ->]|[-> ->]]; rewrite ?P1, ?P3, cos_minus, sin_minus, ?cos_3PI2, ?sin_3PI2, ?cos_PI2, ?sin_PI2; split; lra.
  Qed.

  (** y is what the code puts in the quarter arrays *)
  Lemma split_odd_fold p m sg (y : nat -> R) : (p = 1%nat /\ sg = 1) \/ (p = 3%nat /\ sg = -1) ->
    y 0%nat = a 0%nat + sg * b 0%nat ->
    (forall c, (0 < c)%nat -> (2 * c < q)%nat ->
       let al := ang (q * 4) (p * c) in
       let P := a c + sg * a (q - c)%nat in let Q := sg * b c - b (q - c)%nat in
       y c = P * cos al - Q * sin al /\ y (q - c)%nat = P * sin al + Q * cos al) ->
    (forall c, (0 < c)%nat -> (2 * c = q)%nat ->
       let al := ang (q * 4) (p * c) in
       y c = (a c + sg * a c) * sin al + (sg * b c - b c) * cos al) ->
    rsum q (fun c => y c * cas (ang q (c * m))) = dht_at x (4 * m + p).
  Proof.
    intros Hp Y0 Yc Ym. rewrite (split_odd_sum p m sg Hp). apply rsum_pairs.
    - rewrite Y0. unfold gam. rewrite Nat.mul_0_r, Nat.mul_0_l, !ang_0, Rplus_0_r, Ropp_0.
      unfold cas. rewrite cos_0, sin_0. lra.
    - assert (Hs : sg * sg = 1) by (destruct Hp as [[_ ->]|[_ ->]]; lra).
      assert (T : forall c, (0 < c)%nat -> (2 * c < q)%nat ->
        y c * cas (ang q (c * m)) + y (q - c)%nat * cas (ang q ((q - c) * m)) =
        a c * cas (gam p m c) + sg * b c * cas (- gam p m c) +
        (a (q - c)%nat * cas (gam p m (q - c)) + sg * b (q - c)%nat * cas (- gam p m (q - c)))).
      { intros c H1 H2. destruct (Yc c H1 H2) as [-> ->].
        rewrite (cas_opp q (c * m) ((q - c) * m) m) by (try lia; nia).
        rewrite !cas_neg. unfold cas. destruct (gam_mirror p m c ltac:(lia)) as [-> ->].
        destruct (quarter_minus p sg (gam p m c) Hp) as [-> ->].
        unfold gam. rewrite cos_plus, sin_plus. destruct Hp as [[_ ->]|[_ ->]]; ring. }
      intros c Hc. destruct (lt_eq_lt_dec (2 * c) q) as [[L|L]|L].
      + apply T; lia.
      + replace (q - c)%nat with c by lia.
        enough (y c * cas (ang q (c * m)) = a c * cas (gam p m c) + sg * b c * cas (- gam p m c)) by lra.
        rewrite (Ym c) by lia. cbv zeta.
        assert (S0 : sin (ang q (c * m)) = 0).
        { destruct (ang_opp q (c * m) (c * m) m ltac:(lia)) as [_ S]; [nia|]. lra. }
        assert (E : ang (q * 4) (p * c) = ang 4 p - ang (q * 4) (p * c)).
        { assert (E1 : ang 4 p = ang (q * 4) (q * p)) by (symmetry; apply ang_scale; lia).
          assert (E2 : ang (q * 4) (p * c) + ang (q * 4) (p * c) = ang (q * 4) (q * p)) by (rewrite <- ang_add; f_equal; nia). lra. }
        destruct (quarter_minus p sg (ang (q * 4) (p * c)) Hp) as [E1 E2]. rewrite <- E in E1, E2.
        rewrite cas_neg. unfold cas, gam. rewrite cos_plus, sin_plus, S0.
        set (C := cos (ang (q * 4) (p * c))) in *. set (D := sin (ang (q * 4) (p * c))) in *. clearbody C D.
        destruct Hp as [[_ ->]|[_ ->]]; assert (C = D \/ C = - D) as [->| ->] by lra; try ring; assert (D = 0) by lra; subst D; ring.
      + specialize (T (q - c)%nat ltac:(lia) ltac:(lia)). replace (q - (q - c))%nat with c in T by lia. lra.
  Qed.

  Ltac dec :=
    repeat match goal with
    | |- context [Nat.eqb ?a ?b] => destruct (Nat.eqb_spec a b); try lia
    | |- context [Nat.ltb ?a ?b] => destruct (Nat.ltb_spec a b); try lia
    end.

  Lemma split_q1_real m : (m < q)%nat -> nth m (fq (split_q1 q x)) 0 = dht_at x (4 * m + 1).
  Proof.
    intros Hm. unfold split_q1. rewrite fq_spec by (now rewrite map_length, seq_length).
    rewrite nth_dht_of_map by auto. apply split_odd_fold with (sg := 1); auto; unfold a, b.
    - unfold split_odd1. cbn [Nat.eqb nadd nsub RNum]. lra.
    - intros c H1 H2. unfold split_odd1. dec. rewrite !dft_twiddle_val. cbn [re im nadd nsub nmul RNum].
      replace (q - (q - c))%nat with c by lia. replace (c * 1)%nat with (1 * c)%nat by lia. split; lra.
    - intros c H1 H2. unfold split_odd1. dec. rewrite !dft_twiddle_val. cbn [re im nadd nsub nmul RNum].
      replace (q - c)%nat with c by lia. replace (c * 1)%nat with (1 * c)%nat by lia. lra.
  Qed.
  Lemma split_q3_real m : (m < q)%nat -> nth m (fq (split_q3 q x)) 0 = dht_at x (4 * m + 3).
  Proof.
    intros Hm. unfold split_q3. rewrite fq_spec by (now rewrite map_length, seq_length).
    rewrite nth_dht_of_map by auto. apply split_odd_fold with (sg := -1); auto; unfold a, b.
    - unfold split_odd3. cbn [Nat.eqb nadd nsub RNum]. lra.
    - intros c H1 H2. unfold split_odd3. dec. rewrite !dft_twiddle_val. cbn [re im nadd nsub nmul RNum].
      replace (q - (q - c))%nat with c by lia. replace (c * 3)%nat with (3 * c)%nat by lia. split; lra.
    - intros c H1 H2. unfold split_odd3. dec. rewrite !dft_twiddle_val. cbn [re im nadd nsub nmul RNum].
      replace (q - c)%nat with c by lia. replace (c * 3)%nat with (3 * c)%nat by lia. lra.
  Qed.

  Lemma split_real : split_fun q fq fh x = dht_spec x.
  Proof.
    apply dht_spec_ext; [unfold split_fun, interleave; rewrite tab_length; lia|].
    intros k Hk. rewrite Lx in Hk. destruct (quad_cases q k Hk) as (i & j & Hi & Hj & ->).
    destruct (interleave_nth q (fh (split_evens q x)) (fq (split_q1 q x)) (fq (split_q3 q x)) i Hi) as (E0 & E1 & E2 & E3).
    cbn [nzero RNum] in E0, E1, E2, E3. unfold split_fun.
    destruct j as [|[|[|[|j]]]]; [| | | |lia].
    - rewrite E0, split_even by lia. f_equal. lia.
    - rewrite E1. now apply split_q1_real.
    - rewrite E2, split_even by lia. f_equal. lia.
    - rewrite E3. now apply split_q3_real.
  Qed.
End Split.
