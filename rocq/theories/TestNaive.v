(** * test_matches_dht passes on every signal *)
From Verif Require Import Lemmas ButterfliesProof FloatProof FloatButterflies FloatTree IeeeProof PropsFloatProof DHTTheory RealDHT TreeProof.
From Verif Require Export TestReverse.
From Coq Require Import Reals Lra Lia ZArith NArith.
Local Open Scope R_scope.

Lemma b24 : bpow radix2 (-24) = / 16777216. Proof. reflexivity. Qed.
Lemma lo_32 : bpow radix2 (-126) <= / 1000000.
Proof. apply Rle_trans with (bpow radix2 (-24)); [apply bpow_le; lia|rewrite b24; lra]. Qed.
Lemma hi_32 : 1000000 <= bpow radix2 127.
Proof. apply Rle_trans with (bpow radix2 24); [simpl; lra|apply bpow_le; lia]. Qed.

Lemma f32_int n : (n <= 1000)%nat -> is_finite (f32_of_usize n) = true /\ B2R (f32_of_usize n) = INR n.
Proof.
  intros Hn. assert (B : INR n <= 1000) by (replace 1000 with (INR 1000) by (rewrite INR_IZR_INZ; reflexivity); now apply le_INR).
  assert (E : F2R (Float radix2 (Z.of_nat n) 0) = IZR (Z.of_nat n)) by (unfold F2R; simpl; now rewrite Rmult_1_r).
  assert (A : Rabs (IZR (Z.of_nat n)) <= bpow radix2 24).
  { rewrite <- INR_IZR_INZ, Rabs_pos_eq by apply pos_INR. apply Rle_trans with 1000; auto. simpl. lra. }
  pose proof (binary_normalize_correct 24 128 eq_refl eq_refl mode_NE (Z.of_nat n) 0 false) as C. cbv zeta in C. rewrite E in C.
  rewrite round_generic in C; [|apply valid_rnd_round_mode|apply (int_format 24 128 eq_refl eq_refl); exact A].
  rewrite Rlt_bool_true in C.
  - unfold f32_of_usize. destruct C as (-> & -> & _). split; auto. symmetry. apply INR_IZR_INZ.
  - eapply Rle_lt_trans; [exact A|]. apply bpow_lt. lia.
Qed.
Lemma f32_pi_ok : is_finite f32_pi = true /\ Rabs (B2R f32_pi - PI) <= / 10000000.
Proof.
  split; [reflexivity|]. replace (B2R f32_pi) with (13176795 / 4194304) by (cbn; unfold F2R; cbn; lra).
  pose proof pi_bound as B. apply Rabs_le_inv in B. apply Rabs_le. lra.
Qed.

Lemma mul32 (a b : f32) B : is_finite a = true -> is_finite b = true -> Rabs (B2R a * B2R b) <= B -> 1 <= B <= 1000000 ->
  is_finite (f32_mul a b) = true /\ Rabs (B2R (f32_mul a b) - B2R a * B2R b) <= / 16777216 * B.
Proof.
  intros Fa Fb H HB. pose proof lo_32. pose proof hi_32. destruct (mult_ok 24 128 eq_refl eq_refl a b Fa Fb) as [F1 R1]; [change (128 - 1)%Z with 127%Z; lra|].
  split; [exact F1|]. eapply Rle_trans; [exact R1|]. change (- (24))%Z with (-24)%Z. change (2 - 128)%Z with (-126)%Z. rewrite b24.
  apply Rmult_le_compat_l; [lra|]. apply Rmax_lub; lra.
Qed.
Lemma div32 (a b : f32) B : is_finite a = true -> B2R b <> 0 -> Rabs (B2R a / B2R b) <= B -> 1 <= B <= 1000000 ->
  is_finite (f32_div a b) = true /\ Rabs (B2R (f32_div a b) - B2R a / B2R b) <= / 16777216 * B.
Proof.
  intros Fa Fb H HB. pose proof lo_32. pose proof hi_32. destruct (div_ok 24 128 eq_refl eq_refl a b Fa Fb) as [F1 R1]; [change (128 - 1)%Z with 127%Z; lra|].
  split; [exact F1|]. eapply Rle_trans; [exact R1|]. change (- (24))%Z with (-24)%Z. change (2 - 128)%Z with (-126)%Z. rewrite b24.
  apply Rmult_le_compat_l; [lra|]. apply Rmax_lub; lra.
Qed.

Lemma angle32 i k n : (i < n)%nat -> (k < n)%nat -> (n <= 19)%nat ->
  is_finite (f32_angle i k n) = true /\ Rabs (B2R (f32_angle i k n) - ang n (i * k)) <= / 50000 /\ Rabs (B2R (f32_angle i k n)) <= 128.
Proof.
  intros Hi Hk Hn. unfold f32_angle. pose proof lo_32 as Lo. pose proof hi_32 as Hh. pose proof b24 as B24. pose proof PI_34 as P34.
  destruct (f32_int 2 ltac:(lia)) as [F2 E2]. assert (Hik : (i * k <= 18 * 18)%nat) by (apply Nat.mul_le_mono; lia).
  destruct (f32_int (i * k) ltac:(lia)) as [Fj Ej]. destruct (f32_int n ltac:(lia)) as [Fn En]. destruct f32_pi_ok as [Fp Ep].
  assert (N1 : 1 <= INR n) by (apply (le_INR 1); lia). pose proof (INR_le19 n Hn) as N19.
  assert (Jn : INR (i * k) <= 18 * INR n).
  { rewrite mult_INR. assert (INR i <= 18) by (replace 18 with (INR 18) by (simpl; lra); apply le_INR; lia).
    assert (INR k <= INR n) by (apply le_INR; lia). apply Rmult_le_compat; auto using pos_INR. }
  pose proof (pos_INR (i * k)) as J0. set (j := INR (i * k)) in *.
  simpl (INR 2) in E2. replace (1 + 1) with 2 in E2 by lra. set (a2 := f32_of_usize 2) in *. set (aj := f32_of_usize (i * k)) in *. set (an := f32_of_usize n) in *.
  (* 2 (i k) is exact *)
  assert (A1 : is_finite (f32_mul a2 aj) = true /\ B2R (f32_mul a2 aj) = 2 * j).
  { pose proof (Bmult_correct 24 128 eq_refl eq_refl mode_NE a2 aj) as C. rewrite E2, Ej in C. cbn [round_mode] in C.
    assert (Z : 2 * j = IZR (2 * Z.of_nat (i * k))) by (rewrite mult_IZR, <- INR_IZR_INZ; reflexivity).
    rewrite Z in C. destruct (int_rnd 24 128 eq_refl eq_refl (2 * Z.of_nat (i * k))) as [C1 C2].
    { rewrite <- Z, Rabs_pos_eq by lra. simpl. lra. }
    rewrite C2, C1 in C. rewrite F2, Fj in C. destruct C as (C3 & C4 & _). unfold f32_mul. rewrite C3, Z. auto. }
  destruct A1 as [F1 E1]. set (v1 := f32_mul a2 aj) in *.
  assert (pb : 0 < B2R f32_pi <= 316 / 100) by (apply Rabs_le_inv in Ep; lra).
  set (q := B2R f32_pi) in *.
  assert (jq : 0 <= 2 * j * q <= 120 * INR n).
  { split; [apply Rmult_le_pos; lra|]. apply Rle_trans with (2 * (18 * INR n) * (316 / 100)); [apply Rmult_le_compat; lra|lra]. }
  destruct (mul32 v1 f32_pi (120 * INR n) F1 Fp) as [G2 R2]; [rewrite E1; fold q; rewrite Rabs_pos_eq; lra|lra|].
  rewrite E1 in R2. fold q in R2. set (v2 := f32_mul v1 f32_pi) in *. apply Rabs_le_inv in R2.
  assert (dq : Rabs (2 * j * q - 2 * j * PI) <= 36 * INR n * / 10000000).
  { replace (2 * j * q - 2 * j * PI) with (2 * j * (q - PI)) by ring. rewrite Rabs_mult. apply Rmult_le_compat; auto using Rabs_pos. rewrite Rabs_pos_eq; lra. }
  apply Rabs_le_inv in dq.
  assert (I0 : 0 < / INR n) by (apply Rinv_0_lt_compat; lra). assert (In : INR n * / INR n = 1) by (apply Rinv_r; lra).
  assert (Ang : ang n (i * k) = 2 * j * PI * / INR n) by (unfold ang; fold j; unfold Rdiv; ring).
  assert (D2 : Rabs (B2R v2 / INR n - ang n (i * k)) <= / 16777216 * 120 + 36 * / 10000000).
  { rewrite Ang. replace (B2R v2 / INR n - 2 * j * PI * / INR n) with ((B2R v2 - 2 * j * PI) * / INR n) by (unfold Rdiv; ring).
    rewrite Rabs_mult, (Rabs_pos_eq (/ INR n)) by lra.
    replace (/ 16777216 * 120 + 36 * / 10000000) with ((/ 16777216 * (120 * INR n) + 36 * INR n * / 10000000) * / INR n) by (field; lra).
    apply Rmult_le_compat_r; [lra|]. apply Rabs_le. lra. }
  assert (Ab : 0 <= ang n (i * k) <= 36 * (315 / 100)).
  { rewrite Ang. assert (Jn' : j * / INR n <= 18).
    { apply (Rmult_le_reg_r (INR n)); [lra|]. rewrite Rmult_assoc, Rinv_l by lra. lra. }
    assert (0 <= j * / INR n) by (apply Rmult_le_pos; lra).
    replace (2 * j * PI * / INR n) with (2 * (j * / INR n) * PI) by ring. split; [apply Rmult_le_pos; lra|].
    replace (36 * (315 / 100)) with (2 * 18 * (315 / 100)) by lra. apply Rmult_le_compat; lra. }
  apply Rabs_le_inv in D2.
  destruct (div32 v2 an 120 G2) as [G3 R3]; rewrite ?En; [lra|apply Rabs_le; lra|lra|].
  rewrite En in R3. apply Rabs_le_inv in R3. split; [exact G3|]. split; apply Rabs_le; lra.
Qed.

Section Reference.
  Context (L : libm) (L32 : libm32) (signal : nat -> list f32).
  Hypothesis A : accurate L.
  Hypothesis A32 : accurate32 L32.
  Hypothesis Us : uniform F32 signal.
  Local Hint Extern 0 (Num f32) => exact (Num_f32 L) : typeclass_instances.
  Notation tk := (tk F32).
  Let RN := ok32 L A.

  Lemma twiddle32 i k n : (i < n)%nat -> (k < n)%nat -> (n <= 19)%nat ->
    ck F32 (1 + / 40000) 2 (f32_add (lcos32 L32 (f32_angle i k n)) (lsin32 L32 (f32_angle i k n))) (cas (ang n (i * k))).
  Proof.
    intros Hi Hk Hn. destruct (angle32 i k n Hi Hk Hn) as (Fa & Ea & Ba). destruct (A32 _ Fa Ba) as [[Fc Ec] [Fs Es]].
    set (a := f32_angle i k n) in *. set (t := ang n (i * k)) in *.
    replace (bpow radix2 (-22)) with (/ 4194304) in * by (simpl; lra).
    pose proof (cos_lip (B2R a) t) as C1. pose proof (sin_lip (B2R a) t) as S1. pose proof (COS_bound t). pose proof (SIN_bound t).
    assert (C2 : Rabs (cos (B2R a) - cos t) <= / 50000) by lra. assert (S2 : Rabs (sin (B2R a) - sin t) <= / 50000) by lra. clear C1 S1.
    apply Rabs_le_inv in C2, S2, Ec, Es. unfold cas.
    destruct (r_add _ _ RN (lcos32 L32 a) (lsin32 L32 a) Fc Fs) as [Fw Ew].
    { cbn [fval fhi F32]. pose proof hi_32. apply Rabs_le. lra. }
    cbn [fval fu F32 ffin] in *. rewrite b24 in Ew.
    change (@nadd f32 (Num_f32 L)) with f32_add in *.
    set (c := B2R (lcos32 L32 a)) in *. set (s := B2R (lsin32 L32 a)) in *.
    assert (Bs : Rabs (c + s) <= 3) by (apply Rabs_le; lra).
    assert (Ew' : Rabs (B2R (f32_add (lcos32 L32 a) (lsin32 L32 a)) - (c + s)) <= / 16777216 * 3) by (eapply Rle_trans; [exact Ew|]; apply Rmult_le_compat_l; lra).
    apply Rabs_le_inv in Ew'. split; [lra|]. split; [lra|]. split; [exact Fw|]. cbn [fval F32]. split; apply Rabs_le; lra.
  Qed.

  (** the reference on one chunk *)
  Notation sum32 k n := (fold_left (fun sum '(i, x) =>
        let angle := f32_angle i k n in
        let twiddle := f32_add (lcos32 L32 angle) (lsin32 L32 angle) in
        f32_add sum (f32_mul twiddle x))).
  Lemma fold32 k n (x : list f32) : (k < n)%nat -> (n <= 19)%nat -> length x = n -> Forall (fun v => ffin F32 v /\ 0 <= fval F32 v <= 10) x ->
    forall l pre acc, x = pre ++ l ->
    tk ((1 + / 40000) * 1 * (1 + fu F32) ^ (length pre + 1)) (1 + 20 * INR (length pre)) acc
      (rsum (length pre) (fun j => nth j (map B2R x) 0 * cas (ang n (j * k)))) ->
    tk ((1 + / 40000) * 1 * (1 + fu F32) ^ (n + 1)) (1 + 20 * INR n)
      (sum32 k n (combine (seq (length pre) (length l)) l) acc)
      (rsum n (fun j => nth j (map B2R x) 0 * cas (ang n (j * k)))).
  Proof.
    intros Hk Hn Lx Fx. induction l as [|v l IH]; intros pre acc El Ta.
    { rewrite app_nil_r in El. subst pre. rewrite Lx in Ta. exact Ta. }
    cbn [length seq combine fold_left]. cbv zeta.
    assert (Lp : (length pre + S (length l) = n)%nat) by (rewrite <- Lx, El, app_length; reflexivity).
    set (m := length pre) in *.
    assert (u0 : 0 <= fu F32) by apply (r_u _ _ RN).
    assert (Tv : tk 1 10 v (nth m (map B2R x) 0)).
    { replace (nth m (map B2R x) 0) with (B2R v).
      2: { rewrite El, map_app, app_nth2; rewrite map_length; fold m; [|lia]. now rewrite Nat.sub_diag. }
      assert (Iv : In v x) by (rewrite El; apply in_elt). rewrite Forall_forall in Fx. destruct (Fx v Iv) as [Fv Bv]. cbn [ffin fval F32] in *.
      pose proof lo_32. assert (Rabs (B2R v) <= 10) by (rewrite Rabs_pos_eq; lra).
      split; [lra|]. split; [cbn [flo F32]; lra|]. split; auto. intros _. split; auto. cbn [fval F32]. rewrite Rminus_eq_0, Rabs_R0. split; auto. lra. }
    pose proof (twiddle32 m k n ltac:(lia) Hk Hn) as Ck.
    pose proof (tk_cmul _ _ RN _ _ _ _ _ _ _ _ Ck Tv) as Tp.
    assert (E1 : (1 + / 40000) * 1 * (1 + fu F32) <= (1 + / 40000) * 1 * (1 + fu F32) ^ (m + 1)).
    { apply Rmult_le_compat_l; [lra|]. rewrite <- (pow_1 (1 + fu F32)) at 1. apply Rle_pow; [lra|lia]. }
    apply (tk_mono F32 _ ((1 + / 40000) * 1 * (1 + fu F32) ^ (m + 1)) _ (2 * 10)) in Tp; auto; [|nra|lra].
    pose proof (tk_add _ _ RN _ _ _ _ _ _ _ Ta Tp) as Tn.
    specialize (IH (pre ++ [v]) (f32_add acc (f32_mul (f32_add (lcos32 L32 (f32_angle m k n)) (lsin32 L32 (f32_angle m k n))) v))).
    rewrite app_length in IH. cbn [length] in IH. fold m in IH. rewrite (Nat.add_1_r m) in IH. apply IH.
    - now rewrite <- app_assoc.
    - rewrite S_INR. cbn [rsum]. replace (S m + 1)%nat with (S (m + 1)) by lia. cbn [pow].
      replace ((1 + / 40000) * 1 * ((1 + fu F32) * (1 + fu F32) ^ (m + 1))) with ((1 + / 40000) * 1 * (1 + fu F32) ^ (m + 1) * (1 + fu F32)) by ring.
      replace (1 + 20 * (INR m + 1)) with (1 + 20 * INR m + 2 * 10) by ring.
      rewrite (Rmult_comm (nth m (map B2R x) 0)). exact Tn.
  Qed.
  Lemma reference_at k n (x : list f32) : (k < n)%nat -> (n <= 19)%nat -> length x = n -> Forall (fun v => ffin F32 v /\ 0 <= fval F32 v <= 10) x ->
    is_finite (nth k (reference_dht L32 x x) (B754_zero false)) = true /\
    Rabs (B2R (nth k (reference_dht L32 x x) (B754_zero false)) - dht_at (map B2R x) k) <= 2 / 100.
  Proof.
    intros Hk Hn Lx Fx. unfold reference_dht. rewrite Lx. rewrite nth_map_seq by auto. rewrite Nat.add_0_l.
    assert (u0 : 0 <= fu F32) by apply (r_u _ _ RN).
    assert (T0 : tk ((1 + / 40000) * 1 * (1 + fu F32) ^ (0 + 1)) (1 + 20 * INR 0) (B754_zero false) 0).
    { simpl (INR 0). rewrite pow_1. pose proof lo_32. split; [nra|]. split; [cbn [flo F32]; lra|]. rewrite Rabs_R0. split; [lra|]. intros _.
      split; [reflexivity|]. cbn [fval F32 B2R]. rewrite Rminus_eq_0, Rabs_R0. split; [|lra]. apply Rmult_le_pos; nra. }
    pose proof (fold32 k n x Hk Hn Lx Fx x [] (B754_zero false) eq_refl T0) as Tk. cbn [length] in Tk. rewrite Lx in Tk.
    assert (Lm : length (map B2R x) = n) by (now rewrite map_length). unfold dht_at. rewrite Lm. destruct Tk as (_ & _ & _ & K).
    assert (Pw : 1 <= (1 + fu F32) ^ (n + 1) <= 1 + / 400000).
    { split; [apply pow_R1_Rle; lra|]. eapply Rle_trans; [apply pow_exp; lra|].
      assert (INR (n + 1) <= 20) by (replace 20 with (INR 20) by (simpl; lra); apply le_INR; lia). pose proof (pos_INR (n + 1)).
      cbn [fu F32] in *. rewrite b24 in *. assert (0 <= INR (n + 1) * / 16777216 <= 20 * / 16777216) by (split; [apply Rmult_le_pos; lra|apply Rmult_le_compat_r; lra]).
      pose proof (exp_small (INR (n + 1) * / 16777216)). lra. }
    pose proof (INR_le19 n Hn) as N19. pose proof (pos_INR n) as N0.
    set (w := (1 + fu F32) ^ (n + 1)) in *.
    assert (M : 0 <= 1 + 20 * INR n <= 381) by lra.
    destruct K as (Fv & Ev & _).
    { cbn [fhi F32]. pose proof hi_32. assert ((1 + / 40000) * 1 * w <= 2) by lra. nra. }
    split; [exact Fv|]. eapply Rle_trans; [exact Ev|].
    apply Rle_trans with ((/ 40000 + / 390000) * 381); [|lra]. apply Rmult_le_compat; lra.
  Qed.

  (** the reference on a list of chunks *)
  Lemma reference_all n (xs : list (list f32)) : (0 < n)%nat -> Forall (fun x => length x = n) xs ->
    forall fuel, (length xs <= fuel)%nat -> reference_chunks L32 fuel n (concat xs) (concat xs) = concat (map (fun x => reference_dht L32 x x) xs).
  Proof.
    intros Pn. induction xs as [|x xs IH]; intros Fx fuel Hf; [destruct fuel; reflexivity|].
    cbn [length] in Hf. destruct fuel as [|fuel]; [lia|]. apply Forall_cons_iff in Fx as [Lx Fx]. cbn [concat map reference_chunks].
    destruct (x ++ concat xs) as [|a r] eqn:E; [apply app_eq_nil in E as [-> _]; simpl in Lx; lia|]. rewrite <- E. clear E a r.
    assert (E1 : firstn n (x ++ concat xs) = x) by (rewrite firstn_app, Lx, Nat.sub_diag, firstn_all2, firstn_O, app_nil_r by lia; reflexivity).
    assert (E2 : skipn n (x ++ concat xs) = concat xs) by (rewrite skipn_app, Lx, Nat.sub_diag, skipn_all2 by lia; reflexivity).
    rewrite E1, E2, IH by (auto; lia). reflexivity.
  Qed.

  Definition near (a b : f32) : Prop := is_finite a = true /\ is_finite b = true /\ Rabs (B2R a - B2R b) <= 3 / 100.
  Lemma nth_Forall2 (P : f32 -> f32 -> Prop) d (l1 l2 : list f32) : length l1 = length l2 -> (forall k, (k < length l1)%nat -> P (nth k l1 d) (nth k l2 d)) -> Forall2 P l1 l2.
  Proof.
    revert l2. induction l1 as [|a l1 IH]; intros [|b l2] Hl H; try discriminate; constructor.
    - apply (H 0%nat). simpl. lia.
    - apply IH; [now injection Hl|]. intros k Hk. apply (H (S k)). simpl. lia.
  Qed.
  Lemma Forall2_nth32 (P : f32 -> f32 -> Prop) d (l1 l2 : list f32) : Forall2 P l1 l2 -> forall k, (k < length l1)%nat -> P (nth k l1 d) (nth k l2 d).
  Proof. induction 1 as [|a b l1 l2 Hab H IH]; intros k Hk; [simpl in Hk; lia|]. destruct k; [exact Hab|]. apply IH. simpl in Hk. lia. Qed.
  Lemma chunks_near n (xs : list (list f32)) : (n <= 19)%nat -> (0 < n)%nat ->
    Forall (fun x => length x = n /\ Forall (fun v => ffin F32 v /\ 0 <= fval F32 v <= 10) x) xs ->
    Forall2 near (concat (map (fun x => reference_dht L32 x x) xs)) (concat (map (naive_fun n) xs)).
  Proof.
    intros Hn Pn. induction xs as [|x xs IH]; intros Fx; [constructor|]. apply Forall_cons_iff in Fx as [[Lx Bx] Fx]. cbn [map concat].
    apply Forall2_app; [|now apply IH]. 
    assert (Ln : length (naive_fun n x) = n) by (pose proof (tr_len _ _ (naive_transforms (T := f32) n) x) as Q; rewrite naive_len in Q; auto).
    assert (Lr : length (reference_dht L32 x x) = n) by (unfold reference_dht; rewrite map_length, seq_length; auto).
    apply (nth_Forall2 near (B754_zero false)); [congruence|]. rewrite Lr. intros k Hk.
    destruct (reference_at k n x Hk Hn Lx Bx) as [F1 E1].
    destruct (naive_at F32 (Num_f32 L) RN n 1 10 x (map B2R x)) as (_ & _ & K); auto; [apply small_usz; lia|lra|now rewrite map_length| |].
    { intros j Hj. change 0 with (B2R (B754_zero false : f32)). rewrite map_nth. change (@nzero f32 (Num_f32 L)) with (B754_zero false : f32).
      assert (Iv : In (nth j x (B754_zero false)) x) by (apply nth_In; lia). set (v := nth j x (B754_zero false)) in *.
      rewrite Forall_forall in Bx. destruct (Bx v Iv) as [Fv Bv]. cbn [ffin fval F32] in *.
      pose proof lo_32. assert (Rabs (B2R v) <= 10) by (rewrite Rabs_pos_eq; lra).
      split; [lra|]. split; [cbn [flo F32]; lra|]. split; auto. intros _. split; auto. cbn [fval F32]. rewrite Rminus_eq_0, Rabs_R0. split; auto. lra. }
    pose proof (INR_le19 n Hn) as N19.
    destruct (tk_close F32 (Num_f32 L) RN (proj1 w32) (proj2 w32) (bpow_le radix2 100 127 ltac:(lia)) _ (n + 2) 1 _ _ _ (K k Hk)) as [F2 E2]; [now rewrite Rmult_1_l|lia|lra|].
    cbn [ffin fval F32] in F2, E2. change (@nzero f32 (Num_f32 L)) with (B754_zero false : f32) in *.
    split; auto. split; auto. apply Rabs_le_inv in E1. apply Rabs_le_inv in E2. apply Rabs_le. lra.
  Qed.

  Lemma suite_naive : test_matches_dht L L32 signal = Ok tt.
  Proof.
    unfold test_matches_dht. cbv zeta. rewrite each_seq; [cbn [bind]|].
    { destruct (tr_zero _ _ (naive_transforms (T := f32) 0) (naive_len 0)) as [Z1 Z2]. unfold dht_process. rewrite Z1. cbn [bind]. now rewrite Z1, Z2. }
    intros n Hn. rewrite naive_len, Nat.eqb_refl. cbn [rassert bind].
    pose proof (naive_transforms (T := f32) n) as Tr. pose proof (naive_len (T := f32) n) as Ln.
    destruct (Us (n * 4)%nat) as [Ls Bs]. set (x := signal (n * 4)%nat) in *.
    destruct (chunks_exist n 4 x) as (xs & Ex & Lxs & Fx); [lia|].
    assert (Ch : chunks_of (dht_len (dht_naive n)) xs) by (rewrite Ln; split; auto; intros ->; discriminate).
    assert (Er : reference_chunks L32 4 n x x = concat (map (fun x => reference_dht L32 x x) xs)).
    { rewrite Ex. apply reference_all; auto; lia. }
    assert (Nr : Forall2 near (concat (map (fun x => reference_dht L32 x x) xs)) (concat (map (naive_fun n) xs))).
    { apply chunks_near; try lia. apply Forall_forall. intros c Hc. rewrite Forall_forall in Fx. split; [now apply Fx|].
      apply Forall_forall. intros v Hv. rewrite Forall_forall in Bs. apply Bs. rewrite Ex. apply in_concat. eauto. }
    rewrite Er. set (e := concat (map (fun x => reference_dht L32 x x) xs)) in *. set (r := concat (map (naive_fun n) xs)) in *.
    assert (Lr : length e = (n * 4)%nat).
    { unfold e. rewrite (concat_length_const n); [rewrite map_length; lia|]. apply Forall_forall. intros c Hc. apply in_map_iff in Hc as (c' & <- & Hc').
      rewrite Forall_forall in Fx. unfold reference_dht. rewrite map_length, seq_length. now apply Fx. }
    assert (Len : length e = length r) by (clear - Nr; induction Nr; simpl; congruence).
    assert (Cl : assert_close e r = Ok tt).
    { unfold assert_close. rewrite (compare_close F32 (Num_f32 L) RN FloatNum_f32 (abs_ok 24 128) f64_of_f32_exact (proj1 w32) (bpow_le radix2 100 127 ltac:(lia)) e r (3 / 100)); auto; try lra; try lia.
      - intros k Hk. apply (Forall2_nth32 near). auto. auto.
      - rewrite Lr. assert (INR (n * 4 + 1) <= 77) by (replace 77 with (INR 77) by (simpl; lra); apply le_INR; lia). unfold weight. lra. }
    assert (Ip : forall scr, (dht_inplace_scratch (dht_naive (T := f32) n) <= length scr)%nat -> exists scr', dht_process_with_scratch (dht_naive n) x scr = Ok (r, scr') /\ length scr' = length scr).
    { intros scr Hs. destruct (tr_inplace _ _ Tr xs scr) as (s & E & L1 & _); auto; [lia|]. exists s. rewrite Ex. auto. }
    assert (Lr' : length r = length x) by (congruence).
    unfold dht_process. destruct (Ip (repeat nzero (dht_inplace_scratch (dht_naive (T := f32) n)))) as (s1 & E1 & L1); [rewrite repeat_length; lia|]. rewrite E1. cbn [bind].
    rewrite Cl. cbn [bind]. unfold copy_from_slice. rewrite Lr', Nat.eqb_refl. cbn [bind].
    destruct (Ip (map (fun _ => f32_of_usize 100) s1)) as (s2 & E2 & L2); [rewrite map_length, L1, repeat_length; lia|]. rewrite E2. cbn [bind]. rewrite Cl. cbn [bind].
    destruct (tr_oop _ _ Tr xs e []) as (i & s & E3 & _); [lia|auto|rewrite <- Ex; lia|cbn; lia|].
    rewrite <- Ex in E3. rewrite E3. exact Cl.
  Qed.
End Reference.
