(** * The butterflies and the naive algorithm compute the DHT over exact reals *)
From Verif Require Import Lemmas Contract ButterfliesProof NxnInst RealDHT.
From Coq Require Import Reals Lra Lia List Arith.
Import ListNotations.
Local Open Scope R_scope.

Section Real.
  Context (cst : R).
  Local Hint Extern 0 (Num R) => exact (RNum cst) : typeclass_instances.

  Lemma tw_angle n i : 1 * 2 * PI / INR n * INR i = ang n i.
  Proof. unfold ang, Rdiv. ring. Qed.
  Lemma twf_angle n i : -1 * 2 * PI / INR n * INR i = - ang n i.
  Proof. unfold ang, Rdiv. ring. Qed.

  Lemma dht_twiddle_val i n : compute_dht_twiddle i n = cas (ang n i).
  Proof.
    unfold compute_dht_twiddle. cbn [ncos nsin nadd RNum]. now rewrite tw_angle.
  Qed.
  Lemma dft_twiddle_val i n : compute_dft_twiddle_inverse i n = Cplx (cos (ang n i)) (sin (ang n i)).
  Proof. unfold compute_dft_twiddle_inverse. cbn [ncos nsin RNum]. now rewrite tw_angle. Qed.

  Lemma naive_real n x : (0 < n)%nat -> length x = n -> naive_fun n x = dht_spec x.
  Proof.
    intros Hn L. unfold naive_fun, dht_spec. rewrite L. apply map_ext. intros k. unfold dht_at. rewrite L.
    assert (E : forall m f (a : R), fold_left (fun acc j => acc + f j) (seq 0 m) a = a + rsum m f).
    { induction m; intros f a0; [simpl; lra|]. rewrite seq_S, fold_left_app, IHm. simpl. lra. }
    cbn [nadd nmul nzero RNum]. rewrite (E n (fun j => compute_dht_twiddle ((j * k) mod n) n * nth j x 0)).
    rewrite Rplus_0_l. apply rsum_ext. intros j Hj. rewrite dht_twiddle_val, cas_ang_mod by lia. lra.
  Qed.

  (** the transform with a table of the values of cas *)
  Lemma dht_table n (K : list R) x : length x = n -> (n <> 0)%nat ->
    map (fun i => cas (ang n i)) (seq 0 n) = K ->
    dht_spec x = map (fun k => rsum n (fun j => nth j x 0 * nth ((j * k) mod n) K 0)) (seq 0 n).
  Proof.
    intros L Hn <-. unfold dht_spec. rewrite L. apply map_ext. intros k. unfold dht_at. rewrite L.
    apply rsum_ext. intros j _. rewrite (nth_map_seq (fun i => cas (ang n i))) by (apply Nat.mod_upper_bound; auto). cbv beta. rewrite Nat.add_0_l. now rewrite cas_ang_mod.
  Qed.

  Lemma cas_0 n : cas (ang n 0) = 1.
  Proof. rewrite ang_0. unfold cas. rewrite cos_0, sin_0. lra. Qed.
  Lemma cas_mirror n j k : (n <> 0)%nat -> (j + k = n)%nat -> cas (ang n k) = cos (ang n j) - sin (ang n j).
  Proof. intros Hn E. rewrite (cas_opp n j k 1) by lia. apply cas_neg. Qed.
  Lemma cas_def t : cas t = cos t + sin t.
  Proof. reflexivity. Qed.
  Lemma ang_half n : (n <> 0)%nat -> ang (2 * n) n = PI.
  Proof. intros. unfold ang. rewrite mult_INR. simpl (INR 2). field. now apply not_0_INR. Qed.
  (** half a turn further *)
  Lemma cas_flip N n j k : (n <> 0)%nat -> (N = 2 * n)%nat -> (k = j + n)%nat -> cas (ang N k) = - cas (ang N j).
  Proof. intros Hn -> ->. rewrite ang_add, ang_half by auto. unfold cas. rewrite neg_cos, neg_sin. lra. Qed.
  Lemma quarter_cs n : (n <> 0)%nat -> cos (ang (4 * n) n) = 0 /\ sin (ang (4 * n) n) = 1.
  Proof.
    intros Hn. assert (E : ang (4 * n) n = PI / 2).
    { unfold ang. rewrite mult_INR. simpl (INR 4). field. now apply not_0_INR. }
    rewrite E. split; [apply cos_PI2|apply sin_PI2].
  Qed.

  Ltac entries := cbn [map seq]; repeat (apply (f_equal2 (@cons R)); [|]); try reflexivity.

  Lemma cas2 : map (fun i => cas (ang 2 i)) (seq 0 2) = [1; -1].
  Proof. entries; [apply cas_0|]. rewrite (cas_flip 2 1 0 1), cas_0 by lia. lra. Qed.
  Lemma cas3 : let c := cos (ang 3 1) in let s := sin (ang 3 1) in
    map (fun i => cas (ang 3 i)) (seq 0 3) = [1; c + s; c - s].
  Proof. entries; [apply cas_0|now apply cas_mirror]. Qed.
  Lemma cas4 : map (fun i => cas (ang 4 i)) (seq 0 4) = [1; 1; -1; -1].
  Proof.
    destruct (quarter_cs 1 ltac:(lia)) as [Q1 Q2]. change (4 * 1)%nat with 4%nat in *.
    assert (cas (ang 4 1) = 1) by (unfold cas; rewrite Q1, Q2; lra).
    entries; auto; [apply cas_0| |].
    - rewrite (cas_flip 4 2 0 2), cas_0 by lia. lra.
    - rewrite (cas_flip 4 2 1 3) by lia. simpl. rewrite H. lra.
  Qed.
  Lemma cas5 : let c1 := cos (ang 5 1) in let s1 := sin (ang 5 1) in
    let c2 := cos (ang 5 2) in let s2 := sin (ang 5 2) in
    map (fun i => cas (ang 5 i)) (seq 0 5) = [1; c1 + s1; c2 + s2; c2 - s2; c1 - s1].
  Proof. entries; [apply cas_0| |]; now apply cas_mirror. Qed.

  (** the cube roots of unity *)
  Lemma third_cos : cos (ang 3 1) = - / 2.
  Proof.
    assert (E : ang 3 1 = 2 * (PI / 3)) by (unfold ang; simpl; field).
    rewrite E, cos_2a_cos, cos_PI3. lra.
  Qed.
  Lemma third_sin2 : sin (ang 3 1) * sin (ang 3 1) = 3 / 4.
  Proof. pose proof (sin2_cos2 (ang 3 1)) as E. unfold Rsqr in E. rewrite third_cos in E. lra. Qed.

  Lemma cas6 : let c := cos (ang 3 1) in let s := sin (ang 3 1) in
    map (fun i => cas (ang 6 i)) (seq 0 6) = [1; - (c - s); c + s; -1; c - s; - (c + s)].
  Proof.
    assert (E2 : ang 6 2 = ang 3 1) by (apply (ang_scale 3 2 1); lia).
    assert (E4 : cas (ang 6 4) = cos (ang 3 1) - sin (ang 3 1)) by (rewrite <- E2; now apply cas_mirror).
    entries; auto.
    - apply cas_0.
    - rewrite <- E4, (cas_flip 6 3 1 4) by lia. simpl. lra.
    - now rewrite E2.
    - rewrite (cas_flip 6 3 0 3), cas_0 by lia. reflexivity.
    - rewrite (cas_flip 6 3 2 5) by lia. now rewrite E2.
  Qed.

  Lemma cas8 : let t := cas (ang 8 1) in
    map (fun i => cas (ang 8 i)) (seq 0 8) = [1; t; 1; 0; -1; -t; -1; 0].
  Proof.
    assert (E2 : cas (ang 8 2) = 1).
    { destruct (quarter_cs 2 ltac:(lia)) as [Q1 Q2]. change (4 * 2)%nat with 8%nat in *. unfold cas. rewrite Q1, Q2. lra. }
    assert (E3 : cas (ang 8 3) = 0).
    { unfold cas. replace (ang 8 3) with (3 * (PI / 4)) by (unfold ang; simpl; field). rewrite cos_3PI4, sin_3PI4. lra. }
    entries; auto.
    - apply cas_0.
    - rewrite (cas_flip 8 4 0 4), cas_0 by lia. reflexivity.
    - now rewrite (cas_flip 8 4 1 5) by lia.
    - rewrite (cas_flip 8 4 2 6) by lia. simpl. rewrite E2. lra.
    - rewrite (cas_flip 8 4 3 7) by lia. simpl. rewrite E3. lra.
  Qed.

  Lemma cas9 : let c1 := cos (ang 9 1) in let s1 := sin (ang 9 1) in
    let c2 := cos (ang 9 2) in let s2 := sin (ang 9 2) in
    let c3 := cos (ang 3 1) in let s3 := sin (ang 3 1) in
    let c4 := cos (ang 9 4) in let s4 := sin (ang 9 4) in
    map (fun i => cas (ang 9 i)) (seq 0 9) =
    [1; c1 + s1; c2 + s2; c3 + s3; c4 + s4; c4 - s4; c3 - s3; c2 - s2; c1 - s1].
  Proof.
    assert (E3 : ang 9 3 = ang 3 1) by (apply (ang_scale 3 3 1); lia). rewrite <- E3.
    entries; [apply cas_0| | | |]; now apply cas_mirror.
  Qed.
  (** 40, 80 and 160 degrees *)
  Lemma ninth_cos : cos (ang 9 1) + cos (ang 9 2) + cos (ang 9 4) = 0.
  Proof.
    assert (E1 : ang 9 1 = ang 9 3 - ang 9 2) by (unfold ang; simpl; field).
    assert (E4 : ang 9 4 = 2 * PI - (ang 9 3 + ang 9 2)) by (unfold ang; simpl; field).
    assert (E3 : ang 9 3 = ang 3 1) by (apply (ang_scale 3 3 1); lia).
    rewrite E1, E4, E3. replace (2 * PI - (ang 3 1 + ang 9 2)) with (2 * INR 1 * PI - (ang 3 1 + ang 9 2)) by (simpl; lra).
    rewrite cos_turn', cos_minus, cos_plus, third_cos. lra.
  Qed.
  Lemma ninth_sin : sin (ang 9 2) = sin (ang 9 1) + sin (ang 9 4).
  Proof.
    assert (E1 : ang 9 1 = ang 9 3 - ang 9 2) by (unfold ang; simpl; field).
    assert (E4 : ang 9 4 = 2 * PI - (ang 9 3 + ang 9 2)) by (unfold ang; simpl; field).
    assert (E3 : ang 9 3 = ang 3 1) by (apply (ang_scale 3 3 1); lia).
    rewrite E1, E4, E3. replace (2 * PI - (ang 3 1 + ang 9 2)) with (2 * INR 1 * PI - (ang 3 1 + ang 9 2)) by (simpl; lra).
    rewrite sin_turn', sin_minus, sin_plus, third_cos. lra.
  Qed.

  Lemma cas16 : let t := cas (ang 8 1) in let c := cos (ang 16 1) in let s := sin (ang 16 1) in
    map (fun i => cas (ang 16 i)) (seq 0 16) =
    [1; c + s; t; c + s; 1; c - s; 0; s - c; -1; - (c + s); - t; - (c + s); -1; s - c; 0; c - s].
  Proof.
    pose proof cas8 as T8. cbv zeta in T8. cbn [map seq] in T8. injection T8 as _ T2 T3 T4 T5 T6 T7.
    assert (D : forall k, cas (ang 16 (2 * k)) = cas (ang 8 k)).
    { intros k. f_equal. apply (ang_scale 8 2 k); lia. }
    assert (E3 : cos (ang 16 3) = sin (ang 16 1) /\ sin (ang 16 3) = cos (ang 16 1)).
    { replace (ang 16 3) with (PI / 2 - ang 16 1) by (unfold ang; simpl; field). split; [apply cos_shift|apply sin_shift]. }
    assert (E5 : cos (ang 16 5) = - sin (ang 16 1) /\ sin (ang 16 5) = cos (ang 16 1)).
    { replace (ang 16 5) with (PI / 2 + ang 16 1) by (unfold ang; simpl; field). rewrite cos_plus, sin_plus, cos_PI2, sin_PI2. split; lra. }
    assert (E7 : cos (ang 16 7) = - cos (ang 16 1) /\ sin (ang 16 7) = sin (ang 16 1)).
    { replace (ang 16 7) with (PI - ang 16 1) by (unfold ang; simpl; field). rewrite cos_minus, sin_minus, cos_PI, sin_PI. split; lra. }
    assert (F : forall k, cas (ang 16 (k + 8)) = - cas (ang 16 k)) by (intros; apply (cas_flip 16 8); lia).
    pose proof (F 0%nat) as F0. pose proof (F 1%nat) as F1. pose proof (F 2%nat) as F2. pose proof (F 3%nat) as F3.
    pose proof (F 4%nat) as F4. pose proof (F 5%nat) as F5. pose proof (F 6%nat) as F6. pose proof (F 7%nat) as F7.
    pose proof (D 1%nat) as D1. pose proof (D 2%nat) as D2. pose proof (D 3%nat) as D3.
    cbn [Nat.add Nat.mul] in F0, F1, F2, F3, F4, F5, F6, F7, D1, D2, D3. cbv zeta. cbn [map seq]. rewrite F0, F1, F2, F3, F4, F5, F6, F7.
    rewrite D1, D2, D3, T2, T3. rewrite !(cas_def (ang 16 _)). destruct E3 as [-> ->], E5 as [-> ->], E7 as [-> ->].
    rewrite ang_0, cos_0, sin_0. entries; lra.
  Qed.

  Ltac bf_start n tab x L :=
    rewrite (dht_table n _ x L ltac:(lia) tab);
    list_of n x L;
    unfold bf_fun, bf16_new, bf3_new, bf5_new, bf8_new, bf9_new, compute_dft_twiddle_forward;
    rewrite ?dft_twiddle_val, ?dht_twiddle_val;
    cbn -[Rmult Rplus Rminus Ropp IZR cas cos sin ang INR PI Rdiv Rinv].

  Lemma bf2_real x : length x = 2%nat -> bf_fun bf2_contig x = dht_spec x.
  Proof. intros L. bf_start 2%nat cas2 x L. entries; ring. Qed.
  Lemma bf3_real x : length x = 3%nat -> bf_fun (bf3_contig bf3_new) x = dht_spec x.
  Proof. intros L. bf_start 3%nat cas3 x L. entries; ring. Qed.
  Lemma bf4_real x : length x = 4%nat -> bf_fun bf4_contig x = dht_spec x.
  Proof. intros L. bf_start 4%nat cas4 x L. entries; ring. Qed.
  Lemma bf5_real x : length x = 5%nat -> bf_fun (bf5_contig bf5_new) x = dht_spec x.
  Proof. intros L. bf_start 5%nat cas5 x L. entries; ring. Qed.
  Lemma bf6_real x : length x = 6%nat -> bf_fun (bf6_contig bf3_new) x = dht_spec x.
  Proof.
    intros L. bf_start 6%nat cas6 x L. pose proof third_sin2. pose proof third_cos.
    set (c := cos (ang 3 1)) in *. set (s := sin (ang 3 1)) in *. clearbody c s. subst c.
    assert (E : forall y, s * s * y = 3 / 4 * y) by (intros; rewrite H; ring).
    pose proof (E r). pose proof (E r0). pose proof (E r1). pose proof (E r2). pose proof (E r3). pose proof (E r4).
    entries; lra.
  Qed.
  Lemma bf8_real x : length x = 8%nat -> bf_fun (bf8_contig bf8_new) x = dht_spec x.
  Proof. intros L. bf_start 8%nat cas8 x L. entries; ring. Qed.
  Lemma bf16_real x : length x = 16%nat -> bf_fun (bf16_contig bf16_new) x = dht_spec x.
  Proof. intros L. bf_start 16%nat cas16 x L. entries; ring. Qed.
  Lemma bf9_real x : length x = 9%nat -> bf_fun (bf9_contig bf9_new) x = dht_spec x.
  Proof.
    intros L. bf_start 9%nat cas9 x L. pose proof third_cos. pose proof ninth_cos. pose proof ninth_sin.
    rewrite twf_angle, cos_neg, sin_neg.
    set (c := cos (ang 3 1)) in *. set (s := sin (ang 3 1)) in *. clearbody c s. subst c.
    rewrite H1. replace (cos (ang 9 1)) with (- cos (ang 9 2) - cos (ang 9 4)) by lra.
    entries; field.
  Qed.
End Real.
