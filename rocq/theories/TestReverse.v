(** * The reversal tests pass on every signal *)
From Verif Require Import Lemmas ButterfliesProof FloatProof FloatButterflies FloatTree IeeeProof PropsFloatProof DHTTheory RealDHT.
From Verif Require Export TestSuite.
From Coq Require Import Reals Lra Lia ZArith NArith.
Local Open Scope R_scope.

(** ** exact identities *)
Lemma fwd_angle n i : (-1) * 2 * PI / INR n * INR i = - ang n i.
Proof. unfold ang, Rdiv. ring. Qed.
(** rotating the inputs reverses the outputs *)
Lemma rotated_inputs (x y : list R) k : length y = length x -> (k < length x)%nat ->
  (forall i, (i < length x)%nat -> nth i y 0 = sin (- ang (length x) i) * nth i x 0 + cos (- ang (length x) i) * nth (neg_idx (length x) i) x 0) ->
  dht_at y k = dht_at x (length x - 1 - k).
Proof.
  intros L Hk Hy. set (n := length x) in *. assert (Hn : (0 < n)%nat) by lia. unfold dht_at. rewrite L. fold n.
  rewrite (rsum_ext n _ (fun i => sin (- ang n i) * nth i x 0 * cas (ang n (i * k)) + cos (- ang n i) * nth (neg_idx n i) x 0 * cas (ang n (i * k)))).
  2: { intros i Hi. rewrite Hy by auto. ring. }
  rewrite rsum_add. rewrite <- (rsum_perm n (neg_idx n) (neg_idx n) (fun i => cos (- ang n i) * _ * _)).
  2, 3: intros j Hj; split; [now apply neg_idx_lt|now apply neg_idx_invol].
  rewrite <- rsum_add. apply rsum_ext. intros i Hi. rewrite neg_idx_invol by auto.
  replace (neg_idx n i) with (1 * neg_idx n i)%nat at 1 by lia.
  rewrite (Nat.mul_comm (neg_idx n i)). unfold cas.
  rewrite !cos_neg, !sin_neg.
  destruct (neg_idx_angle n 1 i ltac:(lia) Hn) as [-> _]. destruct (neg_idx_angle n k i ltac:(lia) Hn) as [-> ->].
  rewrite Nat.mul_1_l. rewrite (Nat.mul_comm k i).
  assert (Q : cos (ang n (i * (n - 1 - k))) = cos (ang n i + ang n (i * k)) /\ sin (ang n (i * (n - 1 - k))) = - sin (ang n i + ang n (i * k))).
  { assert (E : ang n i + ang n (i * k) = ang n (i * (k + 1))).
    { unfold ang. rewrite Nat.mul_add_distr_l, plus_INR, Nat.mul_1_r. unfold Rdiv. ring. }
    rewrite E. apply (ang_opp n _ _ i); [lia|]. nia. }
  destruct Q as [-> ->]. rewrite cos_plus, sin_plus. ring.
Qed.

Section Reverse.
  Context {T : Type} (F : fmt T) (N : Num T) (RN : rounded F N) (FT : FloatNum T).
  Hypothesis Habs : forall v, ffin F v -> ffin F (fl_abs v) /\ fval F (fl_abs v) = Rabs (fval F v).
  Hypothesis Hto : forall v, ffin F v -> is_finite (fl_to_f64 v) = true /\ B2R (fl_to_f64 v) = fval F v.
  Hypothesis Hu : fu F <= weight.
  Hypothesis Ht : ftau F <= weight.
  Hypothesis Hhi : bpow radix2 100 <= fhi F.
  Context (signal : nat -> list T) (Us : uniform F signal).
  Local Hint Extern 0 (Num T) => exact N : typeclass_instances.
  Notation tk := (tk F). Notation fac := (fac (fu F) (ftau F)).
  Let u0 : 0 <= fu F := r_u _ _ RN.
  Let t0 : 0 <= ftau F := r_tau _ _ RN.

  Lemma fac_weight a b : INR (a + b) * weight <= / 2 -> 1 <= fac a b <= 1 + 2 * (INR (a + b) * weight).
  Proof.
    intros H. split; [apply (fac_1 _ _ RN)|]. unfold FloatProof.fac. assert (w0 : 0 < weight) by (unfold weight; lra).
    apply Rle_trans with ((1 + weight) ^ a * (1 + weight) ^ b).
    - apply Rmult_le_compat; try (apply pow_le; lra); apply pow_incr; lra.
    - rewrite <- pow_add. eapply Rle_trans; [apply pow_exp; lra|]. assert (0 <= INR (a + b) * weight) by (apply Rmult_le_pos; auto using pos_INR; lra).
      pose proof (exp_small (INR (a + b) * weight)). lra.
  Qed.
  (** at most 60 roundings, values of at most 1000 *)
  Lemma tk_close p a b M v e : tk p M v e -> p = fac a b -> (a + b <= 60)%nat -> M <= 1000 -> ffin F v /\ Rabs (fval F v - e) <= 1 / 100.
  Proof.
    intros Tv -> Hab HM. assert (B : INR (a + b) <= 60) by (replace 60 with (INR 60) by (simpl; lra); now apply le_INR).
    assert (w0 : 0 < weight) by (unfold weight; lra). pose proof (pos_INR (a + b)).
    assert (Wl : INR (a + b) * weight <= 60 * weight) by (apply Rmult_le_compat_r; lra).
    destruct (fac_weight a b) as [F1 F2]; [unfold weight in *; lra|].
    pose proof (tk_pos _ _ _ _ _ Tv) as M0. destruct Tv as (_ & _ & _ & A). rewrite b100 in Hhi.
    destruct A as (Fv & E & _); [unfold weight in *; nra|]. split; auto. eapply Rle_trans; [exact E|].
    apply Rle_trans with ((2 * (60 * weight)) * 1000); [|unfold weight; lra]. apply Rmult_le_compat; unfold weight in *; lra.
  Qed.
  Lemma signal_tk n j : (j < n)%nat -> tk 1 10 (nth j (signal n) nzero) (nth j (map (fval F) (signal n)) 0).
  Proof.
    intros Hj. destruct (Us n) as [L H]. destruct (r_zero _ _ RN) as [_ Z]. rewrite <- Z, map_nth. rewrite Forall_forall in H.
    destruct (H (nth j (signal n) nzero)) as [Fv B]; [apply nth_In; lia|]. pose proof (lo_1 F N RN).
    assert (A : Rabs (fval F (nth j (signal n) nzero)) <= 10) by (rewrite Rabs_pos_eq; lra).
    split; [lra|]. split; [lra|]. split; [auto|]. intros _. split; auto. rewrite Rminus_eq_0, Rabs_R0. split; auto. lra.
  Qed.

  (** the two rotations *)
  Lemma rotate_tk p M n i a b x y : (i < n)%nat -> usz n -> 1 <= p -> tk p M a x -> tk p M b y ->
    tk (p * fac 2 1) (M + M) (twiddled (compute_dft_twiddle_forward i n) a b) (sin (- ang n i) * x + cos (- ang n i) * y).
  Proof.
    intros Hi Un Hp Ta Tb. pose proof (ck_cos _ _ RN true i n ltac:(lia) ltac:(lia) Un) as C. pose proof (ck_sin _ _ RN true i n ltac:(lia) ltac:(lia) Un) as S.
    cbn [ncos nsin RNum] in C, S. rewrite fwd_angle in C, S.
    replace (p * fac 2 1) with ((1 + ftau F) * p * (1 + fu F) * (1 + fu F)) by (unfold FloatProof.fac; simpl; ring).
    rewrite <- (Rmult_1_l M). apply (tk_add _ _ RN); apply (tk_cmul _ _ RN); auto.
  Qed.
  Lemma rotate_tk' p M n i a b x y : (i < n)%nat -> usz n -> 1 <= p -> tk p M a x -> tk p M b y ->
    tk (p * fac 2 1) (M + M) (nadd (nmul (nopp (im (compute_dft_twiddle_forward i n))) b) (nmul (re (compute_dft_twiddle_forward i n)) a))
      (- sin (- ang n i) * y + cos (- ang n i) * x).
  Proof.
    intros Hi Un Hp Ta Tb. pose proof (ck_cos _ _ RN true i n ltac:(lia) ltac:(lia) Un) as C. pose proof (ck_sin _ _ RN true i n ltac:(lia) ltac:(lia) Un) as S.
    cbn [ncos nsin RNum] in C, S. rewrite fwd_angle in C, S.
    replace (p * fac 2 1) with ((1 + ftau F) * p * (1 + fu F) * (1 + fu F)) by (unfold FloatProof.fac; simpl; ring).
    rewrite <- (Rmult_1_l M). apply (tk_add _ _ RN); apply (tk_cmul _ _ RN); auto. now apply (ck_opp _ _ RN).
  Qed.

  (** a loop that writes a suitable value to each position *)
  Lemma fill_loop n (P : nat -> T -> Prop) body s : length s = n ->
    (forall i buf, (i < n)%nat -> length buf = n -> exists v, body i buf = Ok (upd buf i v) /\ P i v) ->
    exists r, for_range 0 n body s = Ok r /\ length r = n /\ forall k, (k < n)%nat -> P k (nth k r nzero).
  Proof.
    intros Ls Hb.
    destruct (for_range_inv (fun i r => length r = n /\ forall k, (k < i)%nat -> P k (nth k r nzero)) 0 n body s) as (r & E & L & K); eauto; try lia.
    - split; auto. intros. lia.
    - intros i r Hi [L K]. destruct (Hb i r) as (v & E & Pv); [lia|auto|]. exists (upd r i v). split; auto. split; [now rewrite upd_length|].
      intros k Hk. destruct (Nat.eq_dec k i) as [->|]; [rewrite nth_upd_eq by lia; auto|rewrite nth_upd_neq by auto; apply K; lia].
  Qed.
  (** the same, half of the positions at a time *)
  Lemma fill_both n (P : nat -> T -> Prop) body s : (0 < n)%nat -> length s = n ->
    (forall i buf, (i < n)%nat -> length buf = n -> exists v w, body i buf = Ok (upd (upd buf i v) (neg_idx n i) w) /\ P i v /\ P (neg_idx n i) w) ->
    exists r, for_range 0 (n / 2 + 1) body s = Ok r /\ length r = n /\ forall k, (k < n)%nat -> P k (nth k r nzero).
  Proof.
    intros Pn Ls Hb.
    assert (Hn : n = 1%nat \/ (n / 2 + 1 <= n)%nat).
    { destruct (Nat.eq_dec n 1); auto. right. assert (n / 2 < n)%nat by (apply Nat.div_lt; lia). lia. }
    pose proof (Nat.div_mod_eq n 2) as Dm. pose proof (Nat.mod_upper_bound n 2 ltac:(lia)) as Dm'.
    destruct (for_range_inv (fun i r => length r = n /\ forall k, (k < n)%nat -> (k < i)%nat \/ (n - k < i)%nat -> P k (nth k r nzero)) 0 (n / 2 + 1) body s) as (r & E & L & K); try lia.
    - split; auto. intros. lia.
    - intros i r Hi [L K]. destruct (Hb i r) as (v & w & E & Pv & Pw); [lia|auto|]. eexists. split; [exact E|]. split; [now rewrite !upd_length|].
      intros k Hk Hc. destruct (Nat.eq_dec k (neg_idx n i)) as [->|Nk]; [rewrite nth_upd_eq by (rewrite upd_length; lia); auto|].
      rewrite nth_upd_neq by auto. destruct (Nat.eq_dec k i) as [->|]; [rewrite nth_upd_eq by lia; auto|rewrite nth_upd_neq by auto].
      apply K; auto. destruct Hc as [Hc|Hc]; [lia|]. right. destruct (Nat.eq_dec (n - k) i) as [Ei|]; [|lia].
      exfalso. apply Nk. unfold neg_idx. rewrite Nat.mod_small by lia. lia.
    - exists r. split; auto. split; auto. intros k Hk. apply K; auto. lia.
  Qed.

  Lemma naive_at n p M (a : list T) x : (0 < n)%nat -> usz n -> 1 <= p -> length a = n -> length x = n ->
    (forall j, (j < n)%nat -> tk p M (nth j a nzero) (nth j x 0)) ->
    dht_process (dht_naive n) a = Ok (naive_fun n a) /\ length (naive_fun n a) = n /\
    forall k, (k < n)%nat -> tk (p * fac (n + 2) 1) (2 * (INR n * M)) (nth k (naive_fun n a) nzero) (dht_at x k).
  Proof.
    intros Pn Un Hp La Lx H. pose proof (naive_transforms (T := T) n) as Tr. split; [|split].
    - apply (process_one (dht_naive n) (naive_fun n)); auto; now rewrite naive_len.
    - pose proof (tr_len _ _ Tr a) as Q. rewrite naive_len in Q. auto.
    - intros k Hk. rewrite <- rsum_const. apply (naive_tkf F N RN n Un p (fun _ => M) a x Hp La Lx H k Hk).
  Qed.
  (** two computed values of one number *)
  Lemma both_close (v1 v2 : list T) : (0 < length v1 <= 100)%nat -> length v2 = length v1 ->
    (forall k, (k < length v1)%nat -> exists e, (ffin F (nth k v1 nzero) /\ Rabs (fval F (nth k v1 nzero) - e) <= 1 / 100) /\
       (ffin F (nth k v2 nzero) /\ Rabs (fval F (nth k v2 nzero) - e) <= 1 / 100)) ->
    assert_close v1 v2 = Ok tt.
  Proof.
    intros [P1 P2] L H. unfold assert_close. rewrite (compare_close F N RN FT Habs Hto Hu Hhi v1 v2 (2 / 100)); auto; try lra.
    - intros k Hk. destruct (H k Hk) as (e & [F1 E1] & [F2 E2]). split; auto. split; auto.
      apply Rabs_le_inv in E1. apply Rabs_le_inv in E2. apply Rabs_le. lra.
    - rewrite plus_INR. assert (INR (length v1) <= 100) by (replace 100 with (INR 100) by (simpl; lra); now apply le_INR). simpl (INR 1). unfold weight. lra.
  Qed.
  Lemma small_usz n : (n <= 1000)%nat -> usz n.
  Proof. intros H. unfold usz. change (2 ^ 64)%N with 18446744073709551616%N. lia. Qed.
  Lemma INR_le19 n : (n <= 19)%nat -> INR n <= 19.
  Proof. intros H. replace 19 with (INR 19) by (simpl; lra). now apply le_INR. Qed.

  Lemma suite_reversal : test_reversal_property signal = Ok tt.
  Proof.
    apply each_seq. intros n Hn. cbv zeta. destruct (Us n) as [Ls _]. assert (Pn : (0 < n)%nat) by lia. pose proof (small_usz n ltac:(lia)) as Un.
    pose proof (INR_le19 n ltac:(lia)) as N19. pose proof (pos_INR n) as N0.
    set (x := map (fval F) (signal n)). assert (Lx : length x = n) by (unfold x; now rewrite map_length).
    assert (Ni : forall i, (i < n)%nat -> (neg_idx n i < n)%nat) by (intros; now apply neg_idx_lt).
    (* the rotated input *)
    destruct (fill_loop n (fun i v => tk (1 * fac 2 1) (10 + 10) v (sin (- ang n i) * nth i x 0 + cos (- ang n i) * nth (neg_idx n i) x 0))
      (fun i twiddled_buffer =>
          a <- idx (signal n) i ;; b <- idx (signal n) ((n - i) mod n) ;;
          set twiddled_buffer i (twiddled (compute_dft_twiddle_forward i n) a b)) (repeat nzero n)) as (tw & Etw & Ltw & Ktw).
    { apply repeat_length. }
    { intros i buf Hi Lb. pose proof (Ni i Hi). unfold neg_idx in H. rewrite (idx_ok nzero (signal n) i), (idx_ok nzero (signal n) ((n - i) mod n)) by lia. cbn [bind].
      rewrite set_ok by lia. eexists. split; [reflexivity|]. apply rotate_tk; auto; try lra; [now apply signal_tk|apply signal_tk; now apply Ni]. }
    rewrite Etw. cbn [bind].
    set (y := map (fun i => sin (- ang n i) * nth i x 0 + cos (- ang n i) * nth (neg_idx n i) x 0) (seq 0 n)).
    assert (Ly : length y = n) by (unfold y; now rewrite map_length, seq_length).
    assert (Hy : forall i, (i < n)%nat -> nth i y 0 = sin (- ang n i) * nth i x 0 + cos (- ang n i) * nth (neg_idx n i) x 0).
    { intros i Hi. unfold y. now rewrite nth_map_seq. }
    destruct (naive_at n (1 * fac 2 1) (10 + 10) tw y) as (E1 & L1 & K1); auto.
    { rewrite Rmult_1_l. apply (fac_1 _ _ RN). }
    { intros j Hj. rewrite Hy by auto. now apply Ktw. }
    destruct (naive_at n 1 10 (signal n) x) as (E2 & L2 & K2); auto; [lra|apply signal_tk|].
    rewrite E1. cbn [bind]. rewrite E2. cbn [bind].
    rewrite both_close; [cbn [bind]|rewrite L1; lia|rewrite rev_length; lia|].
    2: { rewrite L1. intros k Hk. exists (dht_at y k). split.
      - apply (tk_close _ (2 + (n + 2)) (1 + 1) _ _ _ (K1 k Hk)); [rewrite Rmult_1_l; apply fac_mul|lia|lra].
      - rewrite rev_nth by lia. rewrite L2. rewrite (rotated_inputs x y k); rewrite ?Lx; auto; try lia.
        replace (n - S k)%nat with (n - 1 - k)%nat by lia.
        eapply tk_close; [apply K2; lia|rewrite Rmult_1_l; reflexivity|lia|lra]. }
    (* the rotated output *)
    set (X := naive_fun n (signal n)) in *. set (z := map (fval F) (rev (signal n))).
    assert (Lz : length z = n) by (unfold z; now rewrite map_length, rev_length).
    assert (Hz : forall k, (k < n)%nat -> dht_at z k = sin (- ang n k) * dht_at x k + cos (- ang n k) * dht_at x (neg_idx n k)).
    { intros k Hk. pose proof (dht_spec_rev x k) as R. rewrite Lx in R. specialize (R Hk).
      rewrite !nth_dht_spec in R by (rewrite ?rev_length, ?Lx; auto). unfold z. rewrite map_rev. fold x. rewrite R, sin_neg, cos_neg. ring. }
    set (Q := fun k v => tk (1 * fac (n + 2) 1 * fac 2 1) (2 * (INR n * 10) + 2 * (INR n * 10)) v (dht_at z k)).
    assert (F1 : 1 <= 1 * fac (n + 2) 1) by (rewrite Rmult_1_l; apply (fac_1 _ _ RN)).
    destruct (fill_loop n Q
      (fun i twiddled_output =>
          a <- idx X i ;; b <- idx X ((n - i) mod n) ;;
          set twiddled_output i (twiddled (compute_dft_twiddle_forward i n) a b)) (repeat nzero n)) as (o1 & Eo1 & Lo1 & Ko1).
    { apply repeat_length. }
    { intros i buf Hi Lb. pose proof (Ni i Hi). unfold neg_idx in H. rewrite (idx_ok nzero X i), (idx_ok nzero X ((n - i) mod n)) by lia. cbn [bind].
      rewrite set_ok by lia. eexists. split; [reflexivity|]. unfold Q. rewrite Hz by auto. apply rotate_tk; auto. }
    rewrite Eo1. cbn [bind].
    destruct (fill_both n Q
      (fun i twiddled_output2 =>
          a <- idx X i ;; b <- idx X ((n - i) mod n) ;;
          twiddled_output2 <- set twiddled_output2 i (twiddled (compute_dft_twiddle_forward i n) a b) ;;
          set twiddled_output2 ((n - i) mod n) (nadd (nmul (nopp (im (compute_dft_twiddle_forward i n))) b) (nmul (re (compute_dft_twiddle_forward i n)) a)))
      (repeat nzero n)) as (o2 & Eo2 & Lo2 & Ko2); auto.
    { apply repeat_length. }
    { intros i buf Hi Lb. pose proof (Ni i Hi). unfold neg_idx in H. rewrite (idx_ok nzero X i), (idx_ok nzero X ((n - i) mod n)) by lia. cbn [bind].
      rewrite set_ok by lia. cbn [bind]. rewrite set_ok by (rewrite upd_length; lia). eexists. eexists. split; [reflexivity|]. unfold Q. split.
      - rewrite Hz by auto. apply rotate_tk; auto.
      - rewrite Hz by auto. rewrite neg_idx_invol by auto.
        replace (sin (- ang n (neg_idx n i))) with (- sin (- ang n i)).
        2: { rewrite !sin_neg. pose proof (neg_idx_angle n 1 i ltac:(lia) Pn) as [_ S]. rewrite !Nat.mul_1_l in S. now rewrite S. }
        replace (cos (- ang n (neg_idx n i))) with (cos (- ang n i)).
        2: { rewrite !cos_neg. pose proof (neg_idx_angle n 1 i ltac:(lia) Pn) as [S _]. rewrite !Nat.mul_1_l in S. now rewrite S. }
        apply rotate_tk'; auto. }
    rewrite Eo2. cbn [bind].
    destruct (naive_at n 1 10 (rev (signal n)) z) as (E3 & L3 & K3); auto; [lra|now rewrite rev_length| |].
    { intros j Hj. unfold z. rewrite map_rev, rev_nth, rev_nth by (rewrite ?map_length; lia). rewrite map_length, Ls. apply signal_tk. lia. }
    rewrite E3. cbn [bind].
    assert (Fin : forall o, length o = n -> (forall k, (k < n)%nat -> Q k (nth k o nzero)) -> assert_close o (naive_fun n (rev (signal n))) = Ok tt).
    { intros o Lo Ko. apply both_close; rewrite ?Lo; auto; [lia|]. intros k Hk. exists (dht_at z k). split.
      - apply (tk_close _ (n + 2 + 2) (1 + 1) _ _ _ (Ko k Hk)); [rewrite Rmult_1_l; apply fac_mul|lia|lra].
      - eapply tk_close; [apply K3; auto|rewrite Rmult_1_l; reflexivity|lia|lra]. }
    rewrite (Fin o1) by auto. cbn [bind]. now apply Fin.
  Qed.

  Lemma reverse_1 (b : list T) n : (0 < n)%nat -> length b = n -> exists r, reverse_from_1 b = Ok r /\ length r = n /\
    forall k, (k < n)%nat -> nth k r nzero = nth (neg_idx n k) b nzero.
  Proof.
    intros Pn L. destruct b as [|a b]; [simpl in L; lia|]. exists (a :: rev b). cbn [length] in L. split; [|split].
    - reflexivity.
    - cbn [length]. rewrite rev_length. lia.
    - intros k Hk. unfold neg_idx. destruct k.
      + rewrite Nat.sub_0_r, Nat.mod_same by lia. reflexivity.
      + rewrite Nat.mod_small by lia. cbn [nth]. rewrite rev_nth by lia. replace (n - S k)%nat with (S (length b - S k)) by lia. reflexivity.
  Qed.
  Lemma suite_double_reversal : test_double_reversal_property signal = Ok tt.
  Proof.
    apply each_seq. intros n Hn. cbv zeta. destruct (Us n) as [Ls _]. assert (Pn : (0 < n)%nat) by lia. pose proof (small_usz n ltac:(lia)) as Un.
    pose proof (INR_le19 n ltac:(lia)) as N19. pose proof (pos_INR n) as N0.
    set (x := map (fval F) (signal n)). assert (Lx : length x = n) by (unfold x; now rewrite map_length).
    destruct (naive_at n 1 10 (signal n) x) as (E1 & L1 & K1); auto; [lra|apply signal_tk|]. rewrite E1. cbn [bind].
    destruct (reverse_1 (signal n) n Pn Ls) as (r & Er & Lr & Kr). rewrite Er. cbn [bind].
    destruct (naive_at n 1 10 r (rev_tail x)) as (E2 & L2 & K2); auto; [lra|now rewrite rev_tail_length| |].
    { intros j Hj. rewrite Kr by auto. rewrite nth_rev_tail by lia. rewrite Lx. apply signal_tk. now apply neg_idx_lt. }
    rewrite E2. cbn [bind]. destruct (reverse_1 _ n Pn L2) as (r2 & Er2 & Lr2 & Kr2). rewrite Er2. cbn [bind].
    apply both_close; rewrite ?L1; auto; [lia|]. intros k Hk. exists (dht_at x k). split.
    - eapply tk_close; [apply K1; auto|rewrite Rmult_1_l; reflexivity|lia|lra].
    - rewrite Kr2 by auto. assert (Hk' : (neg_idx n k < n)%nat) by (now apply neg_idx_lt).
      replace (dht_at x k) with (dht_at (rev_tail x) (neg_idx n k)).
      + eapply tk_close; [apply K2; auto|rewrite Rmult_1_l; reflexivity|lia|lra].
      + rewrite <- !nth_dht_spec by (rewrite ?rev_tail_length; lia). rewrite dht_spec_rev_tail.
        rewrite nth_rev_tail by (rewrite dht_spec_length; lia). rewrite dht_spec_length, Lx. now rewrite neg_idx_invol by auto.
  Qed.
End Reverse.
