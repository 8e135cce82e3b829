(** * Proofs of C58-C61: the test suite *)
From Verif Require Import Lemmas FloatProof FloatTree IeeeProof PropsFloatProof DHTTheory RealDHT TestSound TestPass.
From Verif Require Export TestSuite TestReverse TestNaive TestScratch.
From Flocq Require Import Core IEEE754.BinarySingleNaN.
From Coq Require Import Reals Lra Lia ZArith NArith Psatz.

(** ** C58 *)
Lemma C58_scalar_proof L signal : accurate L -> uniform F32 signal ->
  let N := Num_f32 L in
  test_mixed_radix_correct signal = Ok tt /\ test_mixed_radix_2xn_correct signal = Ok tt /\
  test_mixed_radix_3xn_correct signal = Ok tt /\ test_mixed_radix_4xn_correct signal = Ok tt /\
  test_mixed_radix_5xn_correct signal = Ok tt /\ test_mixed_radix_6xn_correct signal = Ok tt /\
  test_radix4_correct signal = Ok tt /\ test_split_radix_correct signal = Ok tt /\
  (forall m, test_raders_correct signal m = Ok tt) /\
  test_reversal_property signal = Ok tt /\ test_double_reversal_property signal = Ok tt /\
  test_mixed_radix_inner_scratch (T := f32) = Ok tt.
Proof.
  intros A Us N.
  pose proof (abs_ok 24 128) as H1. pose proof f64_of_f32_exact as H2. pose proof (proj1 w32) as H3. pose proof (proj2 w32) as H4.
  pose proof (bpow_le radix2 100 127 ltac:(lia)) as H5. pose proof (ok32 L A) as O.
  repeat match goal with |- _ /\ _ => split end.
  - exact (suite_mixed F32 N O FloatNum_f32 H1 H2 H3 H4 H3 H5 signal Us).
  - exact (suite_two F32 N O FloatNum_f32 H1 H2 H3 H4 H3 H5 signal Us).
  - exact (suite_three F32 N O FloatNum_f32 H1 H2 H3 H4 H3 H5 signal Us).
  - exact (suite_four F32 N O FloatNum_f32 H1 H2 H3 H4 H3 H5 signal Us).
  - exact (suite_five F32 N O FloatNum_f32 H1 H2 H3 H4 H3 H5 signal Us).
  - exact (suite_six F32 N O FloatNum_f32 H1 H2 H3 H4 H3 H5 signal Us).
  - exact (suite_radix4 F32 N O FloatNum_f32 H1 H2 H3 H4 H3 H5 signal Us).
  - exact (suite_split F32 N O FloatNum_f32 H1 H2 H3 H4 H3 H5 signal Us).
  - intros m. exact (suite_raders F32 N O FloatNum_f32 H1 H2 H3 H4 H3 H5 signal Us m).
  - exact (suite_reversal F32 N O FloatNum_f32 H1 H2 H3 H4 H5 signal Us).
  - exact (suite_double_reversal F32 N O FloatNum_f32 H1 H2 H3 H4 H5 signal Us).
  - exact (@suite_inner_scratch f32 N).
Qed.

Lemma C58_butterflies_proof L s32 s64 : accurate L -> uniform F32 s32 -> uniform F64 s64 ->
  test_butterfly s32 s64 L (@butterfly2) 2 = Ok tt /\ test_butterfly s32 s64 L (@butterfly3) 3 = Ok tt /\
  test_butterfly s32 s64 L (@butterfly4) 4 = Ok tt /\ test_butterfly s32 s64 L (@butterfly5) 5 = Ok tt /\
  test_butterfly s32 s64 L (@butterfly6) 6 = Ok tt /\ test_butterfly s32 s64 L (@butterfly8) 8 = Ok tt /\
  test_butterfly s32 s64 L (@butterfly9) 9 = Ok tt /\ test_butterfly s32 s64 L (@butterfly16) 16 = Ok tt.
Proof.
  intros A U32 U64.
  assert (K : forall t (b : forall T, Num T -> Dht T), in_range t -> representable F32 t -> representable F64 t -> (0 < tree_len t)%nat ->
    tolerable t = true -> @build f32 (Num_f32 L) Debug t = Ok (b f32 (Num_f32 L)) -> @build f64 (Num_f64 L) Debug t = Ok (b f64 (Num_f64 L)) ->
    test_butterfly s32 s64 L b (tree_len t) = Ok tt).
  { intros t b I R1 R2 P To B1 B2. unfold test_butterfly.
    rewrite (passes32 L Debug t _ s32 A U32 I R1 B1 P To). cbn [bind]. exact (passes64 L Debug t _ s64 A U64 I R2 B2 P To). }
  assert (R : forall n, (n <= 1000)%nat -> usz (8 * n)) by apply usz_small.
  repeat match goal with |- _ /\ _ => split end.
  - apply (K Fly2 (@butterfly2)); try exact I; try reflexivity; try (split; [exact (R 2%nat ltac:(lia))|exact I]). cbn. lia.
  - apply (K Fly3 (@butterfly3)); try exact I; try reflexivity; try (split; [exact (R 3%nat ltac:(lia))|exact I]). cbn. lia.
  - apply (K Fly4 (@butterfly4)); try exact I; try reflexivity; try (split; [exact (R 4%nat ltac:(lia))|exact I]). cbn. lia.
  - apply (K Fly5 (@butterfly5)); try exact I; try reflexivity; try (split; [exact (R 5%nat ltac:(lia))|exact I]). cbn. lia.
  - apply (K Fly6 (@butterfly6)); try exact I; try reflexivity; try (split; [exact (R 6%nat ltac:(lia))|exact I]). cbn. lia.
  - apply (K Fly8 (@butterfly8)); try exact I; try reflexivity; try (split; [exact (R 8%nat ltac:(lia))|exact I]). cbn. lia.
  - apply (K Fly9 (@butterfly9)); try exact I; try reflexivity; try (split; [exact (R 9%nat ltac:(lia))|exact I]). cbn. lia.
  - apply (K Fly16 (@butterfly16)); try exact I; try reflexivity; try (split; [exact (R 16%nat ltac:(lia))|exact I]). cbn. lia.
Qed.

(** ** C59 *)
Local Open Scope R_scope.
Lemma shrink_pow u n : 0 <= u <= 1 -> 1 - INR n * u <= (1 - u) ^ n.
Proof.
  intros Hu. induction n as [|n IH]; [simpl; lra|]. rewrite S_INR. cbn [pow].
  destruct (Rle_dec 0 (1 - INR n * u)) as [P|P].
  - apply Rle_trans with ((1 - u) * (1 - INR n * u)); [|apply Rmult_le_compat_l; lra].
    assert (0 <= u * (INR n * u)) by (repeat apply Rmult_le_pos; try lra; apply pos_INR). lra.
  - assert (0 <= (1 - u) ^ n) by (apply pow_le; lra). assert (0 <= (1 - u) * (1 - u) ^ n) by (apply Rmult_le_pos; lra). lra.
Qed.
Lemma total_difference_tri (x y z : list R) : length y = length x -> total_difference x z <= total_difference x y + total_difference y z.
Proof.
  intros L. unfold total_difference. rewrite L. rewrite <- rsum_add. apply rsum_le. intros k _.
  replace (nth k x 0 - nth k z 0) with ((nth k x 0 - nth k y 0) + (nth k y 0 - nth k z 0)) by ring. apply Rabs_triang.
Qed.
Lemma total_difference_bound (x y : list R) e : (forall k, (k < length x)%nat -> Rabs (nth k x 0 - nth k y 0) <= e) -> total_difference x y <= INR (length x) * e.
Proof. intros H. unfold total_difference. rewrite <- rsum_const. now apply rsum_le. Qed.
Lemma total_difference_pos x y : 0 <= total_difference x y.
Proof. unfold total_difference. apply rsum_nonneg. intros. apply Rabs_pos. Qed.

Lemma mean_error (x y z : list R) s : (0 < length x)%nat -> INR (length x) <= 10000 -> length z = length x ->
  (forall k, (k < length x)%nat -> Rabs (nth k z 0 - dht_at x k) <= INR (length x + 3) * weight * 2 * (20 * INR (length x))) ->
  1 - INR (length x + 1) * bpow radix2 (-24) <= s -> s * total_difference z y <= (/ 10 + bpow radix2 (-50)) * INR (length x) ->
  total_difference (dht_spec x) y <= (101 / 1000 + INR (length x) * INR (length x + 3) / 400000) * INR (length x).
Proof.
  intros P Nb Lz Hz Hs Ht. set (n := length x) in *. pose proof (pos_R n P) as N1.
  assert (T1 : total_difference (dht_spec x) z <= INR n * (INR (n + 3) * weight * 2 * (20 * INR n))).
  { unfold n at 1. rewrite <- (dht_spec_length x). apply total_difference_bound. rewrite dht_spec_length. intros k Hk.
    rewrite nth_dht_spec by auto. rewrite Rabs_minus_sym. auto. }
  eapply Rle_trans; [apply (total_difference_tri _ z); now rewrite dht_spec_length|].
  assert (B24 : bpow radix2 (-24) = / 16777216) by reflexivity. assert (B50 : bpow radix2 (-50) = / 1125899906842624) by reflexivity.
  rewrite B24 in Hs. rewrite B50 in Ht. rewrite plus_INR in Hs. simpl (INR 1) in Hs.
  pose proof (total_difference_pos z y) as Tp. set (td := total_difference z y) in *.
  assert (S1 : 9994 / 10000 <= s) by lra.
  assert (S2 : 9994 / 10000 * td <= s * td) by (apply Rmult_le_compat_r; lra).
  assert (S3 : td <= 101 / 1000 * INR n) by lra.
  assert (N3 : 0 <= INR (n + 3)) by apply pos_INR.
  assert (Q : 0 <= INR n * INR (n + 3) * INR n) by (repeat apply Rmult_le_pos; lra).
  assert (Q2 : INR n * (INR (n + 3) * weight * 2 * (20 * INR n)) = 40 * weight * (INR n * INR (n + 3) * INR n)) by ring.
  assert (Q3 : 40 * weight * (INR n * INR (n + 3) * INR n) <= / 400000 * (INR n * INR (n + 3) * INR n)) by (apply Rmult_le_compat_r; [auto|unfold weight; lra]).
  lra.
Qed.

Lemma C59_f32_proof L signal d n : accurate L -> uniform F32 signal -> (0 < n)%nat -> INR n <= 10000 ->
  @check_dht_algorithm f32 (Num_f32 L) _ signal d n = Ok tt ->
  dht_len d = n /\ exists y, @dht_process f32 (Num_f32 L) d (signal n) = Ok y /\ length y = n /\ Forall (fun v => is_finite v = true) y /\
    total_difference (dht_spec (map B2R (signal n))) (map B2R y) <= (101 / 1000 + INR n * INR (n + 3) / 400000) * INR n.
Proof.
  intros A Us P NR C. destruct (Us n) as [Ls _]. destruct (@check_inv f32 (Num_f32 L) _ signal d n P Ls C) as (Ld & y & E & Cy).
  split; auto. exists y. split; auto.
  assert (Lz : length (@naive_fun f32 (Num_f32 L) n (signal n)) = n).
  { pose proof (tr_len _ _ (@naive_transforms f32 (Num_f32 L) n) (signal n)) as Q. rewrite naive_len in Q. auto. }
  assert (Uz : usz (8 * n)) by (apply nat_usz; rewrite mult_INR; simpl (INR 8); lra).
  apply sound32 in Cy; [|rewrite Lz; unfold usz in *; lia]. destruct Cy as (Ly & _ & Fz & Fy & Td). rewrite Lz in *.
  repeat split; auto. assert (Lm : length (map B2R (signal n)) = n) by (rewrite map_length; exact Ls).
  pose proof (mean_error (map B2R (signal n)) (map B2R y) (map B2R (@naive_fun f32 (Num_f32 L) n (signal n)))) as M. rewrite Lm in M. eapply M; eauto.
  - now rewrite map_length.
  - intros k Hk. change 0 with (B2R (B754_zero false : f32)). rewrite map_nth.
    apply (naive_on_signal F32 (Num_f32 L) (ok32 L A) (proj1 w32) (proj2 w32) (proj1 w32) (bpow_le radix2 100 127 ltac:(lia)) signal Us n); auto. lra.
  - apply shrink_pow. split; [apply bpow_ge_0|]. change 1 with (bpow radix2 0). apply bpow_le. lia.
Qed.
Lemma C59_f64_proof L signal d n : accurate L -> uniform F64 signal -> (0 < n)%nat -> INR n <= 10000 ->
  @check_dht_algorithm f64 (Num_f64 L) _ signal d n = Ok tt ->
  dht_len d = n /\ exists y, @dht_process f64 (Num_f64 L) d (signal n) = Ok y /\ length y = n /\ Forall (fun v => is_finite v = true) y /\
    total_difference (dht_spec (map B2R (signal n))) (map B2R y) <= (101 / 1000 + INR n * INR (n + 3) / 400000) * INR n.
Proof.
  intros A Us P NR C. destruct (Us n) as [Ls _]. destruct (@check_inv f64 (Num_f64 L) _ signal d n P Ls C) as (Ld & y & E & Cy).
  split; auto. exists y. split; auto.
  assert (Lz : length (@naive_fun f64 (Num_f64 L) n (signal n)) = n).
  { pose proof (tr_len _ _ (@naive_transforms f64 (Num_f64 L) n) (signal n)) as Q. rewrite naive_len in Q. auto. }
  assert (Uz : usz (8 * n)) by (apply nat_usz; rewrite mult_INR; simpl (INR 8); lra).
  apply sound64 in Cy; [|rewrite Lz; unfold usz in *; lia]. destruct Cy as (Ly & _ & Fz & Fy & Td). rewrite Lz in *.
  repeat split; auto. assert (Lm : length (map B2R (signal n)) = n) by (rewrite map_length; exact Ls).
  pose proof (mean_error (map B2R (signal n)) (map B2R y) (map B2R (@naive_fun f64 (Num_f64 L) n (signal n)))) as M. rewrite Lm in M. eapply M; eauto.
  - now rewrite map_length.
  - intros k Hk. change 0 with (B2R (B754_zero false : f64)). rewrite map_nth.
    apply (naive_on_signal F64 (Num_f64 L) (ok64 L A) (proj1 w64) (proj2 w64) (proj1 w32) (bpow_le radix2 100 1023 ltac:(lia)) signal Us n); auto. lra.
  - eapply Rle_trans; [|apply shrink_pow; split; [apply bpow_ge_0|change 1 with (bpow radix2 0); apply bpow_le; lia]].
    assert (INR (n + 1) * bpow radix2 (-53) <= INR (n + 1) * bpow radix2 (-24)) by (apply Rmult_le_compat_l; [apply pos_INR|apply bpow_le; lia]). lra.
Qed.
Local Close Scope R_scope.

(** ** C60 *)
Section Blind.
  Context {T : Type} {NT : Num T} {FT : FloatNum T} (signal : nat -> list T).

  Lemma first_inplace (d : Dht T) b s : length b = dht_len d ->
    dht_process_with_scratch (first_chunk_only d) b s = dht_process_with_scratch d b s.
  Proof.
    intros L. cbn [first_chunk_only dht_process_with_scratch]. rewrite split_at_ok by lia. cbn [bind]. rewrite <- L, firstn_all, skipn_all.
    destruct (dht_process_with_scratch d b s) as [[b' s']| | |]; cbn [bind]; auto. now rewrite app_nil_r.
  Qed.
  Lemma first_oop (d : Dht T) i o s : length i = dht_len d -> length o = dht_len d ->
    dht_process_oop (first_chunk_only d) i o s = dht_process_oop d i o s.
  Proof.
    intros L L'. cbn [first_chunk_only dht_process_oop]. rewrite !split_at_ok by lia. cbn [bind].
    replace (firstn (dht_len d) i) with i by (rewrite <- L; now rewrite firstn_all). replace (skipn (dht_len d) i) with (@nil T) by (rewrite <- L; now rewrite skipn_all).
    replace (firstn (dht_len d) o) with o by (rewrite <- L'; now rewrite firstn_all). replace (skipn (dht_len d) o) with (@nil T) by (rewrite <- L'; now rewrite skipn_all).
    destruct (dht_process_oop d i o s) as [[[i' o'] s']| | |]; cbn [bind]; auto. now rewrite !app_nil_r.
  Qed.
  Lemma close_len (v1 v2 : list T) : assert_close v1 v2 = Ok tt -> length v1 = length v2.
  Proof. unfold assert_close, compare_real_vectors. destruct (Nat.eqb_spec (length v1) (length v2)); auto. discriminate. Qed.
  Lemma unit_ok (r : res unit) u : r = Ok u -> r = Ok tt.
  Proof. now destruct u. Qed.

  Lemma first_chunk_passes (d : Dht T) n : 0 < n -> length (signal n) = n -> check_dht_algorithm signal d n = Ok tt ->
    check_dht_algorithm signal (first_chunk_only d) n = Ok tt.
  Proof.
    intros P Ls C. pose proof (naive_transforms n) as Tn. pose proof (naive_len n) as Ln.
    unfold check_dht_algorithm in *. change (dht_len (first_chunk_only d)) with (dht_len d).
    change (dht_inplace_scratch (first_chunk_only d)) with (dht_inplace_scratch d). change (dht_oop_scratch (first_chunk_only d)) with (dht_oop_scratch d).
    destruct (Nat.eqb_spec (dht_len d) n) as [Ld|]; [|discriminate]. cbn [rassert bind] in *. cbv zeta in *. rewrite Nat.mul_1_r in *. set (x := signal n) in *.
    destruct (inplace_one (dht_naive n) (naive_fun n) x (repeat nzero (dht_inplace_scratch (dht_naive n)))) as (s1 & E1 & _);
      auto; try lia; [rewrite repeat_length; lia|].
    assert (Le : length (naive_fun n x) = n) by (rewrite <- Ln at 2; apply (tr_len _ _ Tn); congruence).
    set (e := naive_fun n x) in *. rewrite E1 in *. cbn [bind] in *. clear E1.
    assert (Ep : dht_process (first_chunk_only d) x = dht_process d x).
    { unfold dht_process. rewrite first_inplace by lia. reflexivity. }
    rewrite Ep. destruct (dht_process d x) as [y| | |]; try discriminate. cbn [bind] in *.
    destruct (assert_close e y) as [[]| | |]; try discriminate. cbn [bind] in *.
    rewrite first_inplace by lia. destruct (dht_process_with_scratch d x (repeat nzero (dht_inplace_scratch d))) as [[b s]| | |]; try discriminate. cbn [bind] in *.
    destruct (assert_close e b) as [[]| | |]; try discriminate. cbn [bind] in *.
    assert (Ei : (if 0 <? length s
       then buffer <- copy_from_slice b x ;; '(buffer0, _) <- dht_process_with_scratch (first_chunk_only d) buffer (map (fun _ => fl_hundred) s) ;; assert_close e buffer0
       else Ok tt) =
      (if 0 <? length s
       then buffer <- copy_from_slice b x ;; '(buffer0, _) <- dht_process_with_scratch d buffer (map (fun _ => fl_hundred) s) ;; assert_close e buffer0
       else Ok tt)).
    { destruct (0 <? length s); auto. unfold copy_from_slice. destruct (length b =? length x); auto. cbn [bind]. now rewrite first_inplace by lia. }
    rewrite Ei. clear Ei.
    match type of C with bind ?m _ = _ => destruct m as [[]| | |]; try discriminate end. cbn [bind] in *.
    rewrite first_oop by lia. destruct (dht_process_oop d x e (repeat nzero (dht_oop_scratch d))) as [[[i o] s2]| | |]; try discriminate. cbn [bind] in *.
    destruct (assert_close e o) as [[]| | |] eqn:Eo; try discriminate. apply close_len in Eo. cbn [bind] in *.
    destruct (0 <? length s2); auto. unfold copy_from_slice in *. destruct (length i =? length x); auto. cbn [bind] in *. now rewrite first_oop by lia.
  Qed.
  Lemma ignores_passes (d : Dht T) n : 0 < n -> length (signal n) = n -> check_dht_algorithm signal d n = Ok tt ->
    compare_real_vectors (naive_fun n (signal n)) (naive_fun n (signal n)) = Ok true ->
    check_dht_algorithm signal (ignores_output d) n = Ok tt.
  Proof.
    intros P Ls C Ce. pose proof (naive_transforms n) as Tn. pose proof (naive_len n) as Ln.
    unfold check_dht_algorithm in *. change (dht_len (ignores_output d)) with (dht_len d).
    change (dht_inplace_scratch (ignores_output d)) with (dht_inplace_scratch d). change (dht_oop_scratch (ignores_output d)) with (dht_oop_scratch d).
    change (dht_process_with_scratch (ignores_output d)) with (dht_process_with_scratch d). change (dht_process (ignores_output d)) with (dht_process d).
    destruct (Nat.eqb_spec (dht_len d) n) as [Ld|]; [|discriminate]. cbn [rassert bind] in *. cbv zeta in *. rewrite Nat.mul_1_r in *. set (x := signal n) in *.
    destruct (inplace_one (dht_naive n) (naive_fun n) x (repeat nzero (dht_inplace_scratch (dht_naive n)))) as (s1 & E1 & _);
      auto; try lia; [rewrite repeat_length; lia|].
    set (e := naive_fun n x) in *. rewrite E1 in *. cbn [bind] in *. clear E1.
    assert (Ae : assert_close e e = Ok tt) by (unfold assert_close; now rewrite Ce).
    destruct (dht_process d x) as [y| | |]; try discriminate. cbn [bind] in *.
    destruct (assert_close e y) as [[]| | |]; try discriminate. cbn [bind] in *.
    destruct (dht_process_with_scratch d x (repeat nzero (dht_inplace_scratch d))) as [[b s]| | |]; try discriminate. cbn [bind] in *.
    destruct (assert_close e b) as [[]| | |]; try discriminate. cbn [bind] in *.
    match type of C with bind ?m _ = _ => destruct m as [[]| | |]; try discriminate end. cbn [bind] in *. clear C.
    cbn [ignores_output dht_process_oop bind]. rewrite Ae. cbn [bind]. destruct (0 <? _); auto.
    unfold copy_from_slice. rewrite Nat.eqb_refl. reflexivity.
  Qed.

  (** both are wrong *)
  Lemma first_chunk_wrong (d : Dht T) f x : transforms d f -> 0 < dht_len d -> length x = dht_len d -> f x <> x ->
    forall g, ~ transforms (first_chunk_only d) g.
  Proof.
    intros Tr P Lx Nx g Tg. assert (Lf : length (f x) = dht_len d) by now apply (tr_len _ _ Tr).
    destruct (tr_inplace _ _ Tg [x; x] (repeat nzero (dht_inplace_scratch d))) as (s & E & _); auto.
    - split; [discriminate|]. repeat constructor; auto.
    - rewrite repeat_length. apply le_n.
    - cbn [concat map] in E. rewrite !app_nil_r in E. cbn [first_chunk_only dht_process_with_scratch] in E.
      rewrite split_at_ok in E by (rewrite app_length; lia). cbn [bind] in E.
      rewrite <- Lx, firstn_app, skipn_app, Nat.sub_diag, firstn_all, skipn_all in E. cbn [firstn skipn app] in E. rewrite app_nil_r in E.
      destruct (inplace_one d f x (repeat nzero (dht_inplace_scratch d))) as (s' & E' & _); auto; [rewrite repeat_length; lia|].
      rewrite E' in E. cbn [bind] in E. injection E as E _.
      assert (Lg : length (g x) = length (f x)) by (rewrite Lf; now apply (tr_len _ _ Tg)).
      assert (E1 : firstn (length (f x)) (f x ++ x) = firstn (length (f x)) (g x ++ g x)) by (now rewrite E).
      rewrite <- Lg in E1 at 2. rewrite !firstn_app, !Nat.sub_diag, !firstn_all in E1. cbn [firstn] in E1. rewrite !app_nil_r in E1.
      rewrite <- E1 in E. apply app_inv_head in E. congruence.
  Qed.
  Lemma ignores_wrong (d : Dht T) : 0 < dht_len d -> (exists a b : T, a <> b) -> forall g, ~ transforms (ignores_output d) g.
  Proof.
    intros P (a & b & Nab) g Tg. set (n := dht_len d) in *.
    assert (K : forall c, g (repeat a n) = repeat c n).
    { intros c. destruct (tr_oop _ _ Tg [repeat a n] (repeat c n) (repeat nzero (dht_oop_scratch d))) as (i & s & E & _); auto.
      - split; [discriminate|]. repeat constructor. now rewrite repeat_length.
      - cbn [concat]. now rewrite app_nil_r, !repeat_length.
      - rewrite repeat_length. apply le_n.
      - cbn [concat map] in E. rewrite !app_nil_r in E. cbn in E. injection E. auto. }
    pose proof (K a) as Ka. rewrite (K b) in Ka. destruct n; [lia|]. cbn in Ka. injection Ka. auto.
  Qed.
End Blind.

Local Open Scope R_scope.
Lemma nth_fin prec emax (l : list (binary_float prec emax)) k : Forall (fun v => is_finite v = true) l -> (k < length l)%nat ->
  is_finite (nth k l (B754_zero false)) = true.
Proof. intros F H. rewrite Forall_forall in F. apply F. now apply nth_In. Qed.
Lemma self32 L (v w : list f32) : accurate L -> (0 < length v)%nat -> INR (length v) <= 80000 -> @compare_real_vectors f32 (Num_f32 L) _ v w = Ok true ->
  @compare_real_vectors f32 (Num_f32 L) _ v v = Ok true.
Proof.
  intros A P Nb C. apply sound32 in C; [|apply nat_usz; lra]. destruct C as (_ & _ & Fv & _).
  apply (compare_close F32 (Num_f32 L) (ok32 L A) FloatNum_f32 (abs_ok 24 128) f64_of_f32_exact (proj1 w32) (bpow_le radix2 100 127 ltac:(lia)) v v 0); auto.
  - intros k Hk. pose proof (nth_fin _ _ v k Fv Hk) as Fk. split; [exact Fk|]. split; [exact Fk|]. rewrite Rminus_diag_eq, Rabs_R0 by reflexivity. lra.
  - lra.
  - rewrite plus_INR. simpl (INR 1). unfold weight. lra.
Qed.
Lemma self64 L (v w : list f64) : accurate L -> (0 < length v)%nat -> INR (length v) <= 80000 -> @compare_real_vectors f64 (Num_f64 L) _ v w = Ok true ->
  @compare_real_vectors f64 (Num_f64 L) _ v v = Ok true.
Proof.
  intros A P Nb C. apply sound64 in C; [|apply nat_usz; lra]. destruct C as (_ & _ & Fv & _).
  apply (compare_close F64 (Num_f64 L) (ok64 L A) FloatNum_f64 (abs_ok 53 1024) (fun v H => conj H eq_refl) (proj1 w64) (bpow_le radix2 100 1023 ltac:(lia)) v v 0); auto.
  - intros k Hk. pose proof (nth_fin _ _ v k Fv Hk) as Fk. split; [exact Fk|]. split; [exact Fk|]. rewrite Rminus_diag_eq, Rabs_R0 by reflexivity. lra.
  - lra.
  - rewrite plus_INR. simpl (INR 1). unfold weight. lra.
Qed.
Lemma C60_output_f32_proof L signal d n : accurate L -> length (signal n) = n -> (0 < n)%nat -> INR n <= 80000 ->
  @check_dht_algorithm f32 (Num_f32 L) _ signal d n = Ok tt ->
  @check_dht_algorithm f32 (Num_f32 L) _ signal (ignores_output d) n = Ok tt /\ forall g, ~ transforms (ignores_output d) g.
Proof.
  intros A Ls P Nb C. destruct (@check_inv f32 (Num_f32 L) _ signal d n P Ls C) as (Ld & y & _ & Cy).
  assert (Lz : length (@naive_fun f32 (Num_f32 L) n (signal n)) = n).
  { pose proof (tr_len _ _ (@naive_transforms f32 (Num_f32 L) n) (signal n)) as Q. rewrite naive_len in Q. auto. }
  split.
  - apply (@ignores_passes f32 (Num_f32 L)); auto. apply (self32 L _ y A); auto; rewrite Lz; auto.
  - apply (@ignores_wrong f32 (Num_f32 L)); [lia|]. exists (B754_zero false), (B754_zero true). discriminate.
Qed.
Lemma C60_output_f64_proof L signal d n : accurate L -> length (signal n) = n -> (0 < n)%nat -> INR n <= 80000 ->
  @check_dht_algorithm f64 (Num_f64 L) _ signal d n = Ok tt ->
  @check_dht_algorithm f64 (Num_f64 L) _ signal (ignores_output d) n = Ok tt /\ forall g, ~ transforms (ignores_output d) g.
Proof.
  intros A Ls P Nb C. destruct (@check_inv f64 (Num_f64 L) _ signal d n P Ls C) as (Ld & y & _ & Cy).
  assert (Lz : length (@naive_fun f64 (Num_f64 L) n (signal n)) = n).
  { pose proof (tr_len _ _ (@naive_transforms f64 (Num_f64 L) n) (signal n)) as Q. rewrite naive_len in Q. auto. }
  split.
  - apply (@ignores_passes f64 (Num_f64 L)); auto. apply (self64 L _ y A); auto; rewrite Lz; auto.
  - apply (@ignores_wrong f64 (Num_f64 L)); [lia|]. exists (B754_zero false), (B754_zero true). discriminate.
Qed.
Lemma C60_chunks_proof T (NT : Num T) (FT : FloatNum T) signal (d : Dht T) n : length (signal n) = n -> (0 < n)%nat ->
  check_dht_algorithm signal d n = Ok tt ->
  check_dht_algorithm signal (first_chunk_only d) n = Ok tt /\
  forall f x, transforms d f -> length x = n -> f x <> x -> forall g, ~ transforms (first_chunk_only d) g.
Proof.
  intros Ls P C. split; [now apply first_chunk_passes|]. intros f x Tr Lx Nx. destruct (check_inv signal d n P Ls C) as [Ld _].
  apply (first_chunk_wrong d f x); auto; lia.
Qed.
(** at length 0 the mean is 0/0 *)
Lemma zero_fails T (NT : Num T) (FT : FloatNum T) signal (d : Dht T) :
  f64_div (fl_to_f64 (nzero : T)) (f64_of_usize 0) = B754_nan -> signal 0%nat = [] -> check_dht_algorithm signal d 0 <> Ok tt.
Proof.
  intros Hn Hs C. unfold check_dht_algorithm in C. destruct (Nat.eqb_spec (dht_len d) 0) as [Ld|]; [|discriminate]. cbn [rassert bind] in C. cbv zeta in C.
  cbn [Nat.mul] in C. rewrite Hs in C.
  assert (E : dht_process_with_scratch (dht_naive 0) [] (repeat nzero (dht_inplace_scratch (dht_naive 0))) = Ok ([], repeat nzero (dht_inplace_scratch (@dht_naive T NT 0)))).
  { apply (tr_zero _ _ (@naive_transforms T NT 0)). apply naive_len. }
  rewrite E in C. cbn [bind] in C. destruct (dht_process d []) as [y| | |]; try discriminate. cbn [bind] in C.
  assert (Q : assert_close [] y <> Ok tt).
  { unfold assert_close, compare_real_vectors. destruct y; [|discriminate]. cbn [length combine fold_left Nat.eqb rassert bind]. rewrite Hn. discriminate. }
  destruct (assert_close [] y) as [[]| | |]; try discriminate. now apply Q.
Qed.
Lemma C60_zero_proof L s32 s64 (d32 : Dht f32) (d64 : Dht f64) : s32 0%nat = [] -> s64 0%nat = [] ->
  @check_dht_algorithm f32 (Num_f32 L) _ s32 d32 0 <> Ok tt /\ @check_dht_algorithm f64 (Num_f64 L) _ s64 d64 0 <> Ok tt.
Proof. intros H1 H2. split; apply zero_fails; auto; vm_compute; reflexivity. Qed.
(** the f64 instance of C45 *)
Lemma C60_mixed_proof L signal : accurate L -> uniform F64 signal ->
  let d := @mixed_radix f64 (Num_f64 L) (@butterfly2 f64 (Num_f64 L)) (@butterfly2 f64 (Num_f64 L)) in
  @check_dht_algorithm f64 (Num_f64 L) _ signal d 4 = Ok tt.
Proof.
  intros A Us. apply (passes64 L Debug (Mixed Fly2 Fly2) _ signal A Us); cbn [in_range]; auto; try reflexivity.
  - repeat match goal with |- representable _ _ => split; [cbn [tree_len]; apply usz_small; lia|] | |- _ /\ _ => split end; exact I.
  - cbn [tree_len]. lia.
Qed.

(** ** cases *)
Definition flat32 (n : nat) : list f32 := repeat (f32_of_usize 7) n.
Definition flat64 (n : nat) : list f64 := repeat (f64_of_usize 7) n.
Lemma flat32_ok : uniform F32 flat32.
Proof.
  intros n. split; [apply repeat_length|]. apply Forall_forall. intros v Hv. apply repeat_spec in Hv. subst.
  destruct (f32_int 7) as [A B]; [lia|]. split; [exact A|]. cbn [fval F32]. rewrite B. simpl. lra.
Qed.
Lemma flat64_ok : uniform F64 flat64.
Proof.
  intros n. split; [apply repeat_length|]. apply Forall_forall. intros v Hv. apply repeat_spec in Hv. subst.
  split; [reflexivity|]. cbn [fval F64]. replace (B2R (f64_of_usize 7)) with 7; [lra|]. vm_compute. lra.
Qed.
Definition ideal32 (f : R -> R) (a : f32) : f32 :=
  binary_normalize 24 128 eq_refl eq_refl mode_NE (ZnearestE (f (B2R a) * bpow radix2 30)) (-30) false.
Lemma ideal32_ok f a : Rabs (f (B2R a)) <= 1 ->
  is_finite (ideal32 f a) = true /\ Rabs (B2R (ideal32 f a) - f (B2R a)) <= bpow radix2 (-22).
Proof.
  intros B. set (t := f (B2R a)) in *. set (z := ZnearestE (t * bpow radix2 30)).
  pose proof (Znearest_half (fun x => negb (Z.even x)) (t * bpow radix2 30)) as H. fold z in H.
  assert (E : F2R (Float radix2 z (-30)) = IZR z * bpow radix2 (-30)) by reflexivity.
  assert (K : bpow radix2 30 = 1073741824) by reflexivity. assert (K' : bpow radix2 (-30) = / 1073741824) by reflexivity.
  assert (D : Rabs (IZR z * bpow radix2 (-30) - t) <= / 2 * bpow radix2 (-30)).
  { replace (IZR z * bpow radix2 (-30) - t) with (- (t * bpow radix2 30 - IZR z) * bpow radix2 (-30)).
    - rewrite Rabs_mult, Rabs_Ropp, (Rabs_pos_eq (bpow radix2 (-30))) by apply bpow_ge_0. apply Rmult_le_compat_r; [apply bpow_ge_0|exact H].
    - rewrite K, K'. field. }
  assert (B1 : Rabs (F2R (Float radix2 z (-30))) <= 1 + / 2 * bpow radix2 (-30)).
  { rewrite E. replace (IZR z * bpow radix2 (-30)) with (t + (IZR z * bpow radix2 (-30) - t)) by ring.
    eapply Rle_trans; [apply Rabs_triang|]. lra. }
  pose proof hi_32 as HH. pose proof lo_32 as LL.
  destruct (norm_ok 24 128 eq_refl eq_refl z (-30) false) as [F Er].
  { change (128 - 1)%Z with 127%Z. rewrite K' in B1. lra. }
  split; [exact F|].
  replace (B2R (ideal32 f a) - t) with ((B2R (ideal32 f a) - F2R (Float radix2 z (-30))) + (F2R (Float radix2 z (-30)) - t)) by ring.
  eapply Rle_trans; [apply Rabs_triang|]. rewrite E in *.
  change (2 - 128)%Z with (-126)%Z in Er. change (- (24))%Z with (-24)%Z in Er.
  assert (M : Rmax (Rabs (IZR z * bpow radix2 (-30))) (bpow radix2 (-126)) <= 1 + / 2 * bpow radix2 (-30)) by (apply Rmax_lub; rewrite K' in *; lra).
  change (binary_normalize 24 128 eq_refl eq_refl mode_NE z (-30) false) with (ideal32 f a) in Er.
  set (w := IZR z * bpow radix2 (-30)) in *. change (bpow radix2 (-22)) with (/ 4194304). rewrite b24 in Er. rewrite K' in D, M. lra.
Qed.
Lemma accurate32_exists : accurate32 (Libm32 (ideal32 cos) (ideal32 sin)).
Proof.
  intros a _ _. cbn [lcos32 lsin32]. split; apply ideal32_ok; apply Rabs_le; [apply COS_bound|apply SIN_bound].
Qed.
Lemma fly2_passes L signal : accurate L -> uniform F32 signal -> @check_dht_algorithm f32 (Num_f32 L) _ signal (@butterfly2 f32 (Num_f32 L)) 2 = Ok tt.
Proof.
  intros A Us. apply (passes32 L Debug Fly2 _ signal A Us); cbn [in_range]; auto; try reflexivity.
  - split; [apply usz_small; cbn; lia|exact I].
  - cbn. lia.
Qed.
Lemma C59_case_proof : (exists L (d : Dht f32), accurate L /\ @check_dht_algorithm f32 (Num_f32 L) _ flat32 d 4 = Ok tt) /\
  exists L (d : Dht f64), accurate L /\ @check_dht_algorithm f64 (Num_f64 L) _ flat64 d 4 = Ok tt.
Proof.
  split.
  - eexists _, (@dht_naive f32 (Num_f32 _) 4). split; [exact accurate_exists|]. apply (passes32 _ Debug (Naive 4) _ flat32 accurate_exists flat32_ok); cbn [in_range]; auto; try reflexivity.
    + split; [apply usz_small; cbn; lia|exact I].
    + cbn. lia.
  - eexists _, _. split; [exact accurate_exists|]. exact (C60_mixed_proof _ flat64 accurate_exists flat64_ok).
Qed.
Lemma C60_case_proof : exists L f x, accurate L /\ @check_dht_algorithm f32 (Num_f32 L) _ flat32 (@butterfly2 f32 (Num_f32 L)) 2 = Ok tt /\
  transforms (@butterfly2 f32 (Num_f32 L)) f /\ length x = 2%nat /\ f x <> x.
Proof.
  pose proof accurate_exists as A. set (L := Libm (ideal cos) (ideal sin)) in *.
  pose proof (C41_proof F32 (Num_f32 L) (ok32 L A) Debug Fly2 (@butterfly2 f32 (Num_f32 L)) I) as K.
  destruct K as (_ & _ & f & Tr & _); [split; [apply usz_small; cbn; lia|exact I]|reflexivity|].
  exists L, f, [f32_of_usize 1; f32_of_usize 0]. split; auto. split; [apply fly2_passes; auto; apply flat32_ok|]. split; auto. split; auto.
  destruct (@inplace_one f32 _ f [f32_of_usize 1; f32_of_usize 0] [] Tr) as (s & E & _); try (cbn; lia).
  intros Q. rewrite Q in E.
  apply (f_equal (fun r => match r with Ok ([_; B754_zero _], _) => true | _ => false end)) in E. vm_compute in E. discriminate.
Qed.
Lemma C61_test_proof T (NT : Num T) w wi wo h hi ho : (0 < w)%nat -> (0 < h)%nat ->
  test_inner_scratch (big_scratch_algorithm w wi wo) (big_scratch_algorithm h hi ho : Dht T) = Ok tt.
Proof. intros Hw Hh. apply inner_scratch_passes; auto using big_obliging. Qed.
