(** * Proofs of the properties in PropsProc.v *)
From Verif Require Export Spec Api Proc NewSpec FloatSpec Ieee IeeeSpec NumSpec.
From Verif Require Import ProcProof Euclid ProcTree NewTree RootDebug TreeProof FloatTree PropsNewProof PropsExactProof PropsSafetyProof PropsFloatProof PropsDebugProof.
From Flocq Require Import Core IEEE754.BinarySingleNaN.
From Coq Require Import NArith ZArith Reals Lia Lra List.
Import ListNotations.

Lemma C55_constructors_proof (W : width) T (NT : Num T) m size : (4 <= size)%N ->
  (forall n, @naive_run W T NT m size n = naive_new size n) /\
  (forall dw dh : Dht T, (N.of_nat (dht_len dw) < span)%N -> (N.of_nat (dht_len dh) < span)%N ->
     mixed_run m size dw dh = mixed_new m size dw dh) /\
  (forall d : Dht T, radix2_run m size d = radix2_new m size d) /\
  (forall d : Dht T, radix3_run m size d = radix3_new m size d) /\
  (forall d : Dht T, radix4xn_run m size d = radix4xn_new m size d) /\
  (forall d : Dht T, radix5_run m size d = radix5_new m size d) /\
  (forall d : Dht T, radix6_run m size d = radix6_new m size d) /\
  (forall dq dh : Dht T, safe_rust dq -> safe_rust dh -> split_run m size dq dh = split_new m size dq dh) /\
  (forall len, @radix4_run W T NT m size len = radix4_new m size len) /\
  (forall d : Dht T, (N.of_nat (dht_len d) + 1 < span / 2)%N -> rader_fits (N.of_nat (dht_len d + 1)) -> safe_rust d -> raders_run m size d = raders_new m size d).
Proof.
  intros S.
  split; [intros; now apply naive_run_same|].
  split; [intros; now apply mixed_run_same|].
  split; [intros; now apply two_run_same|].
  split; [intros; now apply three_run_same|].
  split; [intros; now apply four_run_same|].
  split; [intros; now apply five_run_same|].
  split; [intros; now apply six_run_same|].
  split; [intros; now apply split_run_same|].
  split; [intros; now apply radix4_run_same|].
  intros; now apply raders_run_same.
Qed.
Lemma C55_trees_proof (W : width) T (NT : Num T) m size t : (4 <= size)%N -> within isize_max size t -> raders_fit t ->
  @run_tree W T NT m size t = build m t \/ @run_tree W T NT m size t = Panic.
Proof. intros S Hw F. rewrite run_tree_same by auto. now apply construct_agrees. Qed.
Lemma C55_complete_proof (W : width) T (NT : Num T) m size t : (4 <= size)%N -> (size <= ample)%N -> within ample size t -> raders_fit t ->
  @run_tree W T NT m size t = build m t.
Proof.
  intros S B Hw F. rewrite run_tree_same; auto; [apply construct_same; auto; rewrite <- ample_unit; auto|].
  apply (within_mono size S ample isize_max t); [destruct W; discriminate|exact Hw].
Qed.
Lemma C55_case_proof (W : width) T (NT : Num T) m :
  within ample 8 (Mixed (Rader (Split Fly1 Fly2)) (Six (Five (Rad4 16)))) /\ raders_fit (Mixed (Rader (Split Fly1 Fly2)) (Six (Five (Rad4 16)))) /\
  exists d, @run_tree W T NT m 8 (Mixed (Naive 5) (Split (Three Fly1) (Six Fly1))) = Ok d /\ dht_len d = 60%nat.
Proof.
  split; [cbn [within tree_len]; destruct W; repeat split; discriminate|].
  split; [fit|].
  rewrite C55_complete_proof; [|discriminate|destruct W; discriminate|cbn [within tree_len]; destruct W; repeat split; discriminate|fit].
  cbn [build bind]. unfold split_radix. cbn [rassert bind dht_len]. eexists. split; [reflexivity|]. reflexivity.
Qed.

(** ** extended Euclid *)
Local Open Scope Z_scope.
Lemma euclid_go_S m f s t r : euclid_go m (S f) s t r =
  if (fst r =? 0)%Z then
    if (0 <=? snd r)%Z then Ok (snd r, snd s, snd t)
    else g <- i64 m (0 - snd r) ;; x <- i64 m (0 - snd s) ;; y <- i64 m (0 - snd t) ;; Ok (g, x, y)
  else
    _ <- rassert (negb (snd r ÷ fst r =? 9223372036854775808)%Z) ;;
    r' <- euclid_step m (snd r ÷ fst r) r ;; s' <- euclid_step m (snd r ÷ fst r) s ;; t' <- euclid_step m (snd r ÷ fst r) t ;;
    euclid_go m f s' t' r'.
Proof. reflexivity. Qed.
Lemma quot_le r0 r1 : 0 < r0 -> 0 <= r1 -> r1 / r0 <= r1.
Proof. intros. apply Z.div_le_upper_bound; nia. Qed.
Lemma halves r0 r1 k : 0 < r0 < r1 -> r0 * r1 < 2 * k -> (r1 mod r0) * r0 < k.
Proof.
  intros H Hk. pose proof (Z.div_mod r1 r0 ltac:(lia)) as Dv. pose proof (Z.mod_pos_bound r1 r0 ltac:(lia)) as Mb.
  assert (1 <= r1 / r0) by (apply Z.div_le_lower_bound; lia). nia.
Qed.
Lemma euclid_ok m a b : 0 < a < b -> b < 9223372036854775808 -> forall fuel s t r0 r1,
  0 <= r0 < r1 -> r0 * r1 < 2 ^ Z.of_nat fuel -> r1 <= b -> Z.gcd r0 r1 = Z.gcd a b ->
  opposite b s -> opposite b t ->
  r0 * Z.abs (snd s) + r1 * Z.abs (fst s) <= b -> r0 * Z.abs (snd t) + r1 * Z.abs (fst t) <= b ->
  fst s * a + fst t * b = r0 -> snd s * a + snd t * b = r1 ->
  exists x y, euclid_go m (S fuel) s t (r0, r1) = Ok (Z.gcd a b, x, y) /\ x * a + y * b = Z.gcd a b.
Proof.
  intros Hab Hb. induction fuel; intros s t r0 r1 Hr Hf Hr1 Hg Os Ot Ss St E0 E1; rewrite euclid_go_S; cbn [fst snd].
  - destruct (Z.eqb_spec r0 0) as [->|]; [|exfalso; simpl in Hf; nia].
    rewrite Z.gcd_0_l, Z.abs_eq in Hg by lia. destruct (Z.leb_spec 0 r1); [|lia]. exists (snd s), (snd t).
    rewrite <- Hg. auto.
  - destruct (Z.eqb_spec r0 0) as [->|Hr0].
    { rewrite Z.gcd_0_l, Z.abs_eq in Hg by lia. destruct (Z.leb_spec 0 r1); [|lia]. exists (snd s), (snd t).
      rewrite <- Hg. auto. }
    rewrite Z.quot_div_nonneg by lia. cbv zeta. set (q := r1 / r0).
    pose proof (Z.div_mod r1 r0 Hr0) as Dv. fold q in Dv. pose proof (Z.mod_pos_bound r1 r0 ltac:(lia)) as Mb.
    assert (Hq : 1 <= q) by (apply Z.div_le_lower_bound; lia).
    assert (Q : q <= r1) by (apply quot_le; lia).
    destruct (Z.eqb_spec q 9223372036854775808) as [Eq|_]; [lia|]. cbn [negb rassert bind].
    destruct (euclid_step_ok m b q r0 r1 s ltac:(lia) ltac:(lia) ltac:(lia) eq_refl Os Ss) as (F1 & O1 & S1).
    destruct (euclid_step_ok m b q r0 r1 t ltac:(lia) ltac:(lia) ltac:(lia) eq_refl Ot St) as (F2 & O2 & S2).
    assert (Er : euclid_step m q (r0, r1) = Ok (r1 - q * r0, r0)).
    { unfold euclid_step. assert (q * r0 <= r1) by lia. assert (0 <= q * r0) by (apply Z.mul_nonneg_nonneg; lia).
      rewrite i64_ok by lia. cbn [bind]. rewrite i64_ok by lia. reflexivity. }
    rewrite Er, F1, F2. cbn [bind].
    assert (Em : r1 - q * r0 = r1 mod r0) by lia.
    apply IHfuel; auto; cbn [fst snd]; try lia.
    + rewrite Nat2Z.inj_succ, Z.pow_succ_r in Hf by lia. rewrite Em. apply halves; lia.
    + rewrite <- Hg. rewrite Em. rewrite Z.gcd_mod by lia. now rewrite Z.gcd_comm.
Qed.
Lemma C56_proof m a b : 0 < a < b -> b < 2 ^ 63 ->
  exists x y, extended_gcd_run m a b = Ok (Z.gcd a b, x, y) /\ x * a + y * b = Z.gcd a b.
Proof.
  change (2 ^ 63) with 9223372036854775808. intros Ha Hb. unfold extended_gcd_run.
  change 200%nat with (S 199). rewrite euclid_go_S. cbn [fst snd].
  destruct (Z.eqb_spec b 0); [lia|]. rewrite Z.quot_small by lia. cbn [Z.eqb negb rassert bind]. cbv zeta. cbn [Z.eqb negb rassert bind].
  unfold euclid_step. rewrite !Z.mul_0_l. rewrite (i64_ok m 0) by lia. cbn [bind]. rewrite !Z.sub_0_r.
  rewrite (i64_ok m a), (i64_ok m 1), (i64_ok m 0) by lia. cbn [bind].
  apply (euclid_ok m a b Ha Hb 198); cbn [fst snd]; try lia.
  - apply Z.lt_le_trans with (2 ^ 63 * 2 ^ 63); [change (2 ^ 63) with 9223372036854775808; nia|]. rewrite <- Z.pow_add_r by lia.
    apply Z.pow_le_mono_r; lia.
  - repeat split; cbn [fst snd]; lia.
  - repeat split; cbn [fst snd]; lia.
Qed.
Lemma C56_roots_proof (W : width) m p : (N.of_nat p < span / 2)%N -> raders_roots_run m p = raders_roots m p.
Proof. intros H. now apply raders_roots_same. Qed.

(** ** whole runs *)
Local Open Scope nat_scope.
Lemma C57_safe_proof (W : width) T (NT : Num T) m size t (d : Dht T) : (4 <= size)%N -> within isize_max size t -> raders_fit t ->
  run_tree m size t = Ok d -> safe_rust d /\ dht_len d = tree_len t.
Proof.
  intros S Hw F E. rewrite run_tree_same in E by auto. split; [eapply construct_safe; eauto|].
  now apply (construct_len m size S) in E as [E _].
Qed.
Lemma build_ranged T (NT : Num T) m t : forall d : Dht T, in_range t -> build m t = Ok d -> assembled m ranged d.
Proof.
  induction t; intros d I E; cbn [build in_range] in *;
    try (destruct (build m t) as [d1| | |] eqn:B; cbn [bind] in E; try discriminate);
    try (destruct (build m t1) as [d1| | |] eqn:B1; cbn [bind] in E; try discriminate;
         destruct (build m t2) as [d2| | |] eqn:B2; cbn [bind] in E; try discriminate).
  1-10: injection E as <-; auto using as_naive, as_bf1, as_bf2, as_bf3, as_bf4, as_bf5, as_bf6, as_bf8, as_bf9, as_bf16.
  - injection E as <-. destruct I. apply as_mixed; auto.
  - injection E as <-. apply as_2xn; auto.
  - injection E as <-. apply as_3xn; auto.
  - injection E as <-. apply as_4xn; auto.
  - injection E as <-. apply as_5xn; auto.
  - injection E as <-. apply as_6xn; auto.
  - destruct I. eapply as_split; [| |exact E]; auto.
  - eapply as_radix4; [exact E|]. exact I.
  - destruct I as [I P]. eapply as_rader; [apply IHt; auto|exact E|]. cbn [al_rader ranged].
    destruct (raders_len _ _ _ E) as [-> _]. now rewrite (build_len m _ _ B).
Qed.
Lemma isize_lengths {W : width} size t : (4 <= size)%N -> within isize_max size t -> lengths64 t.
Proof.
  intros S. assert (A : forall n, (n * size <= isize_max -> n < 2 ^ 64)%N).
  { intros n Hn. change (2 ^ 64)%N with 18446744073709551616%N. pose proof (isize_unit (W := W)). pose proof (unit_top W).
    assert (n * 4 <= n * size)%N by (apply N.mul_le_mono_l; auto). lia. }
  induction t; cbn [within lengths64]; intros [L Hw]; (split; [now apply A|]); tauto.
Qed.
Lemma run_builds (W : width) T (NT : Num T) m size t (d : Dht T) : (4 <= size)%N -> within isize_max size t -> raders_fit t ->
  in_range t \/ m = Debug /\ rad4_small t -> run_tree m size t = Ok d -> in_range t /\ build m t = Ok d.
Proof.
  intros S Hw Fr R E. assert (B : build m t = Ok d).
  { destruct (C55_trees_proof W T NT m size t S Hw Fr) as [Q|Q]; congruence. }
  split; auto. destruct R as [R|[-> R]]; auto. eapply build_in_range; eauto. eapply isize_lengths; eauto.
Qed.
Lemma C57_exact_proof (W : width) m size t (d : Dht R) : (4 <= size)%N -> within isize_max size t -> raders_fit t ->
  in_range t \/ m = Debug /\ rad4_small t -> @run_tree W R (RNum rh) m size t = Ok d -> transforms d dht_spec.
Proof.
  intros S Hw Fr Rg E. destruct (run_builds W _ _ m size t d S Hw Fr Rg E) as [I B].
  apply (C12_proof m ranged); [intros ? []|auto|auto|]. now apply build_ranged with t.
Qed.
Local Open Scope R_scope.
Lemma C57_f32_proof (W : width) L m t d : accurate L -> in_range t \/ m = Debug /\ rad4_small t -> within isize_max 4 t -> raders_fit t -> representable F32 t ->
  @run_tree W f32 (Num_f32 L) m 4 t = Ok d ->
  let '(a, b, c) := roundings t in
  let s := INR a * bpow radix2 (-24) + INR b * (bpow radix2 (-24) + bpow radix2 (-45)) + INR c * bpow radix2 (-24) in
  s <= / 2 ->
  exists f, transforms d f /\
    forall x k, length x = dht_len d -> (k < dht_len d)%nat -> Forall (fun v => is_finite v = true) x ->
      2 * (gain t * FloatSpec.size F32 x) <= bpow radix2 127 ->
      is_finite (nth k (f x) (B754_zero false)) = true /\
      Rabs (B2R (nth k (f x) (B754_zero false)) - dht_at (map B2R x) k) <= 2 * s * (gain t * FloatSpec.size F32 x).
Proof.
  intros A Rg Hw Fr Rp E. destruct (run_builds W f32 (Num_f32 L) m 4 t d ltac:(discriminate) Hw Fr Rg E) as [I B].
  exact (C42_f32_proof L m t d A I Rp B).
Qed.
Lemma C57_f64_proof (W : width) L m t d : accurate L -> in_range t \/ m = Debug /\ rad4_small t -> within isize_max 8 t -> raders_fit t -> representable F64 t ->
  @run_tree W f64 (Num_f64 L) m 8 t = Ok d ->
  let '(a, b, c) := roundings t in
  let s := INR a * bpow radix2 (-53) + INR b * bpow radix2 (-46) + INR c * bpow radix2 (-24) in
  s <= / 2 ->
  exists f, transforms d f /\
    forall x k, length x = dht_len d -> (k < dht_len d)%nat -> Forall (fun v => is_finite v = true) x ->
      2 * (gain t * FloatSpec.size F64 x) <= bpow radix2 1023 ->
      is_finite (nth k (f x) (B754_zero false)) = true /\
      Rabs (B2R (nth k (f x) (B754_zero false)) - dht_at (map B2R x) k) <= 2 * s * (gain t * FloatSpec.size F64 x).
Proof.
  intros A Rg Hw Fr Rp E. destruct (run_builds W f64 (Num_f64 L) m 8 t d ltac:(discriminate) Hw Fr Rg E) as [I B].
  exact (C42_f64_proof L m t d A I Rp B).
Qed.
Lemma C57_case_proof (W : width) L m : accurate L -> in_range case_tree /\ within isize_max 8 case_tree /\ raders_fit case_tree /\ representable F64 case_tree /\
  exists d, @run_tree W f64 (Num_f64 L) m 8 case_tree = Ok d.
Proof.
  intros A. destruct (C42_case64_proof L m A) as (I & Rp & (d & B) & _).
  assert (Fr : raders_fit case_tree) by (unfold case_tree; fit).
  split; [exact I|]. split; [cbn [within case_tree tree_len]; destruct W; repeat split; discriminate|]. split; [exact Fr|]. split; [exact Rp|].
  exists d. rewrite <- B. apply C55_complete_proof; [discriminate|destruct W; discriminate| |exact Fr]. cbn [within case_tree tree_len]. destruct W; repeat split; discriminate.
Qed.
