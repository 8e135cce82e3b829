(** * Compositions that pass check_dht_algorithm on every signal *)
From Verif Require Import Lemmas ButterfliesProof FloatProof FloatTree IeeeProof PropsFloatProof DHTTheory RealDHT TestSound.
From Verif Require Export TestProof.
From Coq Require Import Reals Lra Lia ZArith NArith Psatz.
Local Open Scope R_scope.

Lemma IZR_max a b : IZR (Z.max a b) = Rmax (IZR a) (IZR b).
Proof. destruct (Z.max_spec a b) as [[H ->]|[H ->]]; [rewrite Rmax_right|rewrite Rmax_left]; auto; apply IZR_le; lia. Qed.
Lemma zgain_ok t : gain t = IZR (zgain t).
Proof. induction t; cbn [gain zgain]; rewrite ?mult_IZR, ?IZR_max, ?mult_IZR, ?IHt, ?IHt1, ?IHt2, ?INR_IZR_INZ; reflexivity. Qed.
Lemma no_roundings t : let '(a, b, c) := roundings t in (1 <= a + b + c)%nat \/ t = Fly1.
Proof.
  destruct t; cbn [roundings]; try (destruct (roundings t) as [[? ?] ?]); try (destruct (roundings t1) as [[? ?] ?], (roundings t2) as [[? ?] ?]);
    auto; left; lia.
Qed.

Section Pass.
  Context {T : Type} (F : fmt T) (N : Num T) (RN : rounded F N) (FT : FloatNum T).
  Hypothesis Habs : forall v, ffin F v -> ffin F (fl_abs v) /\ fval F (fl_abs v) = Rabs (fval F v).
  Hypothesis Hto : forall v, ffin F v -> is_finite (fl_to_f64 v) = true /\ B2R (fl_to_f64 v) = fval F v.
  Hypothesis Hu : fu F <= weight.
  Hypothesis Ht : ftau F <= weight.
  Hypothesis Hr : frho F <= weight.
  Hypothesis Hhi : bpow radix2 100 <= fhi F.
  Context (signal : nat -> list T) (Us : uniform F signal).
  Local Hint Extern 0 (Num T) => exact N : typeclass_instances.
  Let u0 : 0 <= fu F := r_u _ _ RN.
  Let t0 : 0 <= ftau F := r_tau _ _ RN.
  Let r0 : 0 <= frho F := r_rho _ _ RN.

  Lemma lo1 : flo F <= 1.
  Proof. exact (lo_1 F N RN). Qed.
  Lemma signal_size n : size F (signal n) <= 10 * INR n.
  Proof.
    destruct (Us n) as [L H]. unfold size. rewrite L. rewrite Rmult_comm, <- rsum_const. apply rsum_le. intros j Hj.
    destruct (r_zero _ _ RN) as [_ Z]. rewrite <- Z, map_nth. rewrite Forall_forall in H.
    destruct (H (nth j (signal n) nzero)) as [_ B]; [apply nth_In; lia|]. pose proof lo1. apply Rmax_lub; [rewrite Rabs_pos_eq; lra|lra].
  Qed.
  Lemma signal_fin n : Forall (ffin F) (signal n).
  Proof. destruct (Us n) as [_ H]. eapply Forall_impl; [|exact H]. cbn. tauto. Qed.

  Lemma same_function (d : Dht T) f g x : transforms d f -> transforms d g -> (0 < dht_len d)%nat -> length x = dht_len d -> f x = g x.
  Proof. intros A B P L. pose proof (process_one d f x A P L) as E. rewrite (process_one d g x B P L) in E. now injection E. Qed.

  (** an instance of a composition on the test's signal *)
  Lemma on_signal m t d f n : in_range t -> representable F t -> build m t = Ok d -> transforms d f -> (0 < n)%nat -> tree_len t = n ->
    let '(a, b, c) := roundings t in
    INR (a + b + c) * weight <= / 2 -> gain t * (20 * INR n) <= 1000000000000 ->
    forall k, (k < n)%nat -> ffin F (nth k (f (signal n)) nzero) /\
      Rabs (fval F (nth k (f (signal n)) nzero) - dht_at (map (fval F) (signal n)) k) <= INR (a + b + c) * weight * gain t * (20 * INR n).
  Proof.
    intros I Rp B Tr P Ln. pose proof (explicit_proof F N RN m t d I Rp B) as Ex. pose proof (C41_proof F N RN m t d I Rp B) as (_ & G2 & _).
    pose proof sqrt2_bounds as S2. pose proof (build_len m t d B) as Ld.
    destruct (roundings t) as [[a b] c]. cbv zeta in Ex. intros Hs Hg. set (s := INR a * fu F + INR b * ftau F + INR c * frho F) in *.
    assert (s0 : 0 <= s).
    { unfold s. assert (Q : forall n v, 0 <= v -> 0 <= INR n * v) by (intros; apply Rmult_le_pos; auto using pos_INR).
      pose proof (Q a _ u0). pose proof (Q b _ t0). pose proof (Q c _ r0). lra. }
    assert (sw : s <= INR (a + b + c) * weight).
    { rewrite !plus_INR. unfold s. assert (Q : forall n v, v <= weight -> INR n * v <= INR n * weight) by (intros; apply Rmult_le_compat_l; auto using pos_INR).
      pose proof (Q a _ Hu). pose proof (Q b _ Ht). pose proof (Q c _ Hr). lra. }
    destruct Ex as (g & Tg & K); [lra|]. intros k Hk. destruct (Us n) as [L _]. pose proof (signal_size n) as Sz.
    assert (Sz0 : 0 <= size F (signal n)).
    { unfold size. apply rsum_nonneg. intros. eapply Rle_trans; [apply Rabs_pos|apply Rmax_l]. }
    assert (GS : gain t * size F (signal n) <= gain t * (10 * INR n)) by (apply Rmult_le_compat_l; lra).
    assert (GS0 : 0 <= gain t * size F (signal n)) by (apply Rmult_le_pos; lra).
    rewrite (same_function d f g) by (auto; lia).
    destruct (K (signal n) k) as [K1 K2]; try lia; [apply signal_fin|rewrite b100 in Hhi; lra|]. split; auto.
    eapply Rle_trans; [exact K2|]. replace (INR (a + b + c) * weight * gain t * (20 * INR n)) with (2 * (INR (a + b + c) * weight) * (gain t * (10 * INR n))) by ring.
    apply Rmult_le_compat; lra.
  Qed.
  Lemma naive_on_signal n : (0 < n)%nat -> usz (8 * n) -> INR n <= 40000 -> forall k, (k < n)%nat ->
    ffin F (nth k (naive_fun n (signal n)) nzero) /\
    Rabs (fval F (nth k (naive_fun n (signal n)) nzero) - dht_at (map (fval F) (signal n)) k) <= INR (n + 3) * weight * 2 * (20 * INR n).
  Proof.
    intros P Uz Nb k Hk. pose proof (on_signal Debug (Naive n) (dht_naive n) (naive_fun n) n I (conj Uz I) eq_refl (naive_transforms n) P eq_refl) as O.
    cbn [roundings gain] in O. replace (n + 2 + 1 + 0)%nat with (n + 3)%nat in O by lia. apply O; auto.
    - rewrite plus_INR. simpl (INR 3). unfold weight. lra.
    - lra.
  Qed.

  Lemma nat_usz n : INR n <= 1000000 -> usz n.
  Proof. intros H. rewrite INR_IZR_INZ in H. apply le_IZR in H. unfold usz. change (2 ^ 64)%N with 18446744073709551616%N. lia. Qed.

  Theorem tolerable_passes m t d : in_range t -> representable F t -> build m t = Ok d -> (0 < tree_len t)%nat -> tolerable t = true ->
    check_dht_algorithm signal d (tree_len t) = Ok tt.
  Proof.
    intros I Rp B P To. pose proof (C41_proof F N RN m t d I Rp B) as (_ & G2 & f & Tr & _). pose proof sqrt2_bounds as S2.
    pose proof (build_len m t d B) as Ld. pose proof (pos_R _ P) as N1.
    pose proof (fun Ln => on_signal m t d f (tree_len t) I Rp B Tr P Ln) as O. pose proof (no_roundings t) as NR. pose proof (zgain_ok t) as Zg.
    unfold tolerable in To. destruct (roundings t) as [[a b] c]. cbv zeta in To. specialize (O eq_refl).
    apply Z.leb_le in To. apply IZR_le in To. rewrite !mult_IZR, plus_IZR, !mult_IZR, plus_IZR, <- !INR_IZR_INZ, <- Zg in To.
    set (n := tree_len t) in *. set (W := INR (a + b + c)) in *. set (g := gain t) in *. set (r := INR n) in *.
    assert (W0 : 0 <= W) by apply pos_INR. assert (Wg : 0 <= W * g) by (apply Rmult_le_pos; lra).
    assert (rWg : W * g <= r * (W * g)) by (rewrite <- (Rmult_1_l (W * g)) at 1; apply Rmult_le_compat_r; lra).
    assert (rr : r * 4 <= r * (r + 3)) by (apply Rmult_le_compat_l; lra).
    assert (To' : 20 * (r * (W * g)) + 40 * (r * (r + 3)) <= 1500000) by lra.
    assert (rb : r <= 10000) by lra. assert (Wgb : W * g <= 75000) by lra.
    assert (Wb : W <= 75000) by (apply Rle_trans with (W * g); auto; rewrite <- (Rmult_1_r W) at 1; apply Rmult_le_compat_l; lra).
    assert (gb : g <= 75000).
    { destruct NR as [NR|NR]; [|subst t; unfold g; cbn; lra]. apply Rle_trans with (W * g); auto. rewrite <- (Rmult_1_l g) at 1.
      apply Rmult_le_compat_r; [lra|]. apply (le_INR 1). lia. }
    assert (w0 : 0 < weight) by (unfold weight; lra).
    assert (Wl : W * weight <= / 2) by (unfold weight; lra).
    assert (grb : g * (20 * r) <= 1000000000000).
    { apply Rle_trans with (75000 * (20 * 10000)); [|lra]. apply Rmult_le_compat; lra. }
    assert (E1 : INR (n + 1) * weight <= / 200) by (rewrite plus_INR; fold r; simpl (INR 1); unfold weight; lra).
    assert (E2 : usz (8 * n)) by (apply nat_usz; rewrite mult_INR; fold r; simpl (INR 8); lra).
    assert (E3 : INR n <= 40000) by (fold r; lra).
    destruct (Us n) as [Ls _].
    assert (Lf : length (f (signal n)) = n) by (rewrite <- Ld; apply (tr_len _ _ Tr); congruence).
    assert (Lg : length (naive_fun n (signal n)) = n).
    { pose proof (tr_len _ _ (naive_transforms (T := T) n) (signal n)) as Q. rewrite naive_len in Q. auto. }
    apply (check_passes signal d f n); auto.
    apply (compare_close F N RN FT Habs Hto Hu Hhi _ _ (9 / 100)); rewrite ?Lg; auto; try lra.
    intros k Hk. destruct (O Wl grb k Hk) as [O1 O2]. destruct (naive_on_signal n P E2 E3 k Hk) as [A1 A2].
    split; auto. split; auto. fold r in A2. rewrite plus_INR in A2. fold r in A2. simpl (INR 3) in A2.
    set (X := dht_at _ k) in *. set (y := fval F (nth k (f (signal n)) nzero)) in *. set (z := fval F (nth k (naive_fun n (signal n)) nzero)) in *.
    replace (z - y) with ((z - X) - (y - X)) by ring. unfold Rminus at 1. eapply Rle_trans; [apply Rabs_triang|]. rewrite Rabs_Ropp.
    assert (E4 : W * weight * g * (20 * r) + (r + (1 + 1 + 1)) * weight * 2 * (20 * r) = weight * (20 * (r * (W * g)) + 40 * (r * (r + 3)))) by ring.
    assert (weight * (20 * (r * (W * g)) + 40 * (r * (r + 3))) <= weight * 1500000) by (apply Rmult_le_compat_l; lra).
    assert (weight * 1500000 <= 9 / 100) by (unfold weight; lra). lra.
  Qed.
End Pass.

(** both types *)
Lemma abs_ok prec emax (v : binary_float prec emax) : is_finite v = true -> is_finite (Babs v) = true /\ B2R (Babs v) = Rabs (B2R v).
Proof. intros H. rewrite is_finite_Babs, B2R_Babs. auto. Qed.
Lemma w32 : bpow radix2 (-24) <= weight /\ bpow radix2 (-24) + bpow radix2 (-45) <= weight.
Proof. unfold weight. simpl. lra. Qed.
Lemma w64 : bpow radix2 (-53) <= weight /\ bpow radix2 (-46) <= weight.
Proof. unfold weight. simpl. lra. Qed.
Lemma passes32 L m t d signal : accurate L -> uniform F32 signal -> in_range t -> representable F32 t ->
  @build f32 (Num_f32 L) m t = Ok d -> (0 < tree_len t)%nat -> tolerable t = true ->
  @check_dht_algorithm f32 (Num_f32 L) _ signal d (tree_len t) = Ok tt.
Proof.
  intros A Us. apply (tolerable_passes F32 (Num_f32 L) (ok32 L A)); auto.
  - exact (abs_ok 24 128).
  - exact f64_of_f32_exact.
  - exact (proj1 w32).
  - exact (proj2 w32).
  - exact (proj1 w32).
  - apply bpow_le. lia.
Qed.
Lemma passes64 L m t d signal : accurate L -> uniform F64 signal -> in_range t -> representable F64 t ->
  @build f64 (Num_f64 L) m t = Ok d -> (0 < tree_len t)%nat -> tolerable t = true ->
  @check_dht_algorithm f64 (Num_f64 L) _ signal d (tree_len t) = Ok tt.
Proof.
  intros A Us. apply (tolerable_passes F64 (Num_f64 L) (ok64 L A)); auto.
  - exact (abs_ok 53 1024).
  - exact (proj1 w64).
  - exact (proj2 w64).
  - exact (proj1 w32).
  - apply bpow_le. lia.
Qed.
