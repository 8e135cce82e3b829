(** * Root-mean-square errors of every constructor and of whole trees *)
From Verif Require Import Lemmas NxnProof NxnInst MixedRadixProof MixedContract SplitRadixProof NumTheory Residues MathProofs RootProofs RadersProof RadersContract.
From Verif Require Import RealDHT DHTTheory MixedReal ButterfliesReal NxnReal SplitReal FloatButterflies FloatMixed FloatSplit FloatTree PropsSameProof.
From Verif Require Export RmsCols RmsSplit RmsRader TreeProof.
From Coq Require Import Lia NArith Reals Lra List.
Local Open Scope R_scope.

Section Rounded.
  Context {V : Type} (Fm : fmt V) (N : Num V) (RN : rounded Fm N).
  Notation u := (fu Fm). Notation tau := (ftau Fm). Notation rho := (frho Fm). Notation fac := (fac u tau).
  Local Hint Extern 0 (Num V) => exact N : typeclass_instances.
  Let u0 : 0 <= u. Proof. apply (r_u _ _ RN). Qed.
  Let tau0 : 0 <= tau. Proof. apply (r_tau _ _ RN). Qed.
  Let rho0 : 0 <= rho. Proof. apply (r_rho _ _ RN). Qed.
  Let fac1 a b : 1 <= fac a b. Proof. apply (fac_1 Fm N RN). Qed.

  Lemma stage_mixed_fac : stage_mixed u tau rho = 1 + 8 * ((1 + rho) * fac 4 1 - 1).
  Proof. unfold stage_mixed, FloatProof.fac. simpl. ring. Qed.
  Lemma stage_two_fac : stage_two u tau = 1 + 6 * (fac 3 1 - 1).
  Proof. unfold stage_two, FloatProof.fac. simpl. ring. Qed.
  Lemma stage_four_fac : stage_four u tau = 1 + 8 * (fac 4 1 - 1).
  Proof. unfold stage_four, FloatProof.fac. simpl. ring. Qed.
  Lemma stage_split_fac : stage_split u tau = 1 + 3 * (fac 4 1 - 1).
  Proof. unfold stage_split, FloatProof.fac. simpl. ring. Qed.
  Lemma stages1 : 1 <= stage_mixed u tau rho /\ 1 <= stage_two u tau /\ 1 <= stage_four u tau /\ 1 <= stage_split u tau.
  Proof.
    rewrite stage_mixed_fac, stage_two_fac, stage_four_fac, stage_split_fac. pose proof (fac1 4 1). pose proof (fac1 3 1).
    assert (1 <= (1 + rho) * fac 4 1) by nra. lra.
  Qed.

  Lemma rmsf_ext (f g : list V -> list V) n r C : (forall x, g x = f x) -> rmsf Fm f n r C -> rmsf Fm g n r C.
  Proof. intros E F a La Fa Hc. rewrite E. now apply F. Qed.
  Lemma rmsf_mono (f : list V -> list V) n r C r' C' : r <= r' -> C <= C' -> rmsf Fm f n r C -> rmsf Fm f n r' C'.
  Proof.
    intros R1 R2 F a La Fa Hc.
    assert (P : 0 <= sqrt (INR n) * sc Fm n a) by (apply Rmult_le_pos; [apply sqrt_pos|apply sc0]).
    destruct (F a La Fa) as [F1 F2]; [eapply Rle_trans; [|exact Hc]; now apply Rmult_le_compat_r|]. split; auto.
    eapply Rle_trans; [exact F2|]. apply Rmult_le_compat_r; lra.
  Qed.
  Lemma rms_mono d r C r' C' : r <= r' -> C <= C' -> rms_close Fm d r C -> rms_close Fm d r' C'.
  Proof.
    intros A B R. destruct (rms_elim Fm d r C R) as (P & Q & f & O & F). eapply rms_intro; [|  |exact O|reflexivity|]; try lra.
    revert F. now apply rmsf_mono.
  Qed.

  Section MixedFun.
    Variables (dw dh : Dht V) (fw fh : list V -> list V) (rw Cw rhh Ch : R).
    Let W := dht_len dw.
    Let H := dht_len dh.
    Lemma mixed_rmsf : (0 < W)%nat -> (0 < H)%nat -> usz (W * H * 8) -> 1 <= rw -> 1 <= Cw -> 1 <= rhh -> 1 <= Ch ->
      (forall y, length y = W -> length (fw y) = W) -> (forall y, length y = H -> length (fh y) = H) ->
      rmsf Fm fw W rw Cw -> rmsf Fm fh H rhh Ch ->
      rmsf Fm (@mixed_fun V N dw dh fw fh) (W * H) (rhh * (stage_mixed u tau rho * rw)) (Rmax Ch (Rmax 8 Cw * stage_mixed u tau rho * rhh)).
    Proof.
      intros Wp Hp Us R1 C1 R2 C2 Lw Lh Fw Fh. destruct stages1 as [S1 _].
      set (dxw := {| dht_len := W; dht_inplace_scratch := 0; dht_oop_scratch := 0; dht_process_with_scratch := fun b s => Ok (b, s); dht_process_oop := fun i o s => Ok (i, o, s) |} : Dht R).
      set (dxh := {| dht_len := H; dht_inplace_scratch := 0; dht_oop_scratch := 0; dht_process_with_scratch := fun b s => Ok (b, s); dht_process_oop := fun i o s => Ok (i, o, s) |} : Dht R).
      set (RC := @cols_fun R (RNum rh) (nat -> cplx R) W H dht_spec (@mixed_pairp R (RNum rh) W dht_spec) (fun c r => @tw8 R (RNum rh) W H r c)).
      assert (EX : forall x, length x = (W * H)%nat -> RC (rows W H x) = dht_spec x).
      { intros x Lx. exact (mixed_fun_real rh dxh dht_spec Hp (fun y _ => eq_refl) rh_rho dxw dht_spec x Wp (fun y _ => eq_refl) Lx). }
      pose proof (mixed_local Fm N RN W H Wp Hp Us fw rw Cw R1 ltac:(lra) Lw Fw EX) as LOC. rewrite <- stage_mixed_fac in LOC.
      assert (S2 : 1 <= stage_mixed u tau rho * rw) by nra.
      pose proof (rows_cols_rms Fm N W H Wp Hp fh rhh Ch R2 ltac:(lra) Lh Fh (@cols_fun V N (nat -> cplx V) W H fw (@mixed_pairp V N W fw) (fun c r => @tw8 V N W H r c)) RC (stage_mixed u tau rho * rw - 1) (Rmax 8 Cw * stage_mixed u tau rho) ltac:(lra)) as RC'.
      replace (1 + (stage_mixed u tau rho * rw - 1)) with (stage_mixed u tau rho * rw) in RC' by ring.
      apply RC'; auto. apply Rmult_le_pos; [|lra]. eapply Rle_trans; [|apply Rmax_l]. lra.
    Qed.
  End MixedFun.
  Let cap1 a b : 1 <= a -> 1 <= Rmax a b.
  Proof. intros. eapply Rle_trans; [eassumption|apply Rmax_l]. Qed.
  Let r1 a b : 1 <= a -> 1 <= b -> 1 <= a * b.
  Proof. intros. nra. Qed.

  Lemma mixed_rms dw dh rw Cw rhh Ch : usz (dht_len dw * dht_len dh * 8) -> rms_close Fm dw rw Cw -> rms_close Fm dh rhh Ch ->
    rms_close Fm (mixed_radix dw dh) (rhh * (stage_mixed u tau rho * rw)) (Rmax Ch (Rmax 8 Cw * stage_mixed u tau rho * rhh)).
  Proof.
    intros Us Aw Ah. destruct (rms_elim Fm _ _ _ Aw) as (Pw & Qw & fw & Ow & Fw), (rms_elim Fm _ _ _ Ah) as (Ph & Qh & fh & Oh & Fh).
    destruct stages1 as [S1 _]. destruct (mixed_radix_ok dw dh _ _ Ow Oh) as [O _].
    assert (P : 1 <= rhh * (stage_mixed u tau rho * rw)) by auto.
    destruct (Nat.eq_dec (dht_len dw * dht_len dh) 0) as [Z|Z]; [eapply rms_zero; eauto|].
    eapply rms_intro; eauto. apply (mixed_rmsf dw dh); auto; try nia; [apply Ow|apply Oh].
  Qed.
  Let len_nxn k d (apply : list V -> res (list V)) : dht_len (nxn k d apply) = (k * dht_len d)%nat.
  Proof. reflexivity. Qed.

  Lemma small_rms k d r C D dR (applyp : list V -> list V) (RC : list R -> list R) phi c : (0 < k)%nat ->
    rms_close Fm d r C -> 1 <= phi -> dht_len dR = dht_len d -> 4 * sqrt (INR k) <= c -> 1 <= c -> dht_len D = (k * dht_len d)%nat ->
    (forall f, dht_ok d f -> dht_ok D (@nxn_fun V N k d f applyp)) ->
    (forall x, (0 < dht_len d)%nat -> length x = (k * dht_len d)%nat -> @nxn_fun R (RNum rh) k dR dht_spec RC x = dht_spec x) ->
    ((0 < dht_len d)%nat -> local Fm k (dht_len d) applyp RC (4 * sqrt (INR k) * (phi - 1)) (4 * phi)) ->
    rms_close Fm D (r * (1 + c * (phi - 1))) (Rmax C (4 * (1 + c * (phi - 1)) * r)).
  Proof.
    intros Kp A P LR Hc Hc1 LD HO EX LOC. destruct (rms_elim Fm _ _ _ A) as (Pr & Qr & f & O & F).
    assert (S1 : 1 <= 1 + c * (phi - 1)) by nra. assert (S2 : 1 <= r * (1 + c * (phi - 1))) by auto.
    destruct (Nat.eq_dec (dht_len d) 0) as [Z|Z]; [eapply rms_zero; eauto; lia|].
    eapply rms_intro; eauto. specialize (LOC ltac:(lia)). pose proof (sqrt_pos (INR k)).
    assert (LOC' : local Fm k (dht_len d) applyp RC (c * (phi - 1)) (4 * (1 + c * (phi - 1)))).
    { intros Y LY FY Hy. assert (P0 : 0 <= sqrt (INR k) * sc Fm (k * dht_len d) Y) by (apply Rmult_le_pos; [auto|apply sc0]).
      destruct (LOC Y LY FY) as (L1 & L2 & L3).
      - eapply Rle_trans; [|exact Hy]. apply Rmult_le_compat_r; auto. nra.
      - split; auto. split; auto. eapply Rle_trans; [exact L3|]. apply Rmult_le_compat_r; auto. apply Rmult_le_compat_r; lra. }
    apply (rows_cols_rms Fm N k (dht_len d) Kp ltac:(lia) f r C Pr ltac:(lra) (ok_len _ _ O) F applyp RC); auto; try nra.
    intros x Lx. specialize (EX x ltac:(lia) Lx). unfold nxn_fun in EX. rewrite LR in EX. exact EX.
  Qed.

  Let dR (d : Dht V) : Dht R := {| dht_len := dht_len d; dht_inplace_scratch := 0; dht_oop_scratch := 0; dht_process_with_scratch := fun b s => Ok (b, s); dht_process_oop := fun i o s => Ok (i, o, s) |}.
  Lemma two_rms d r C : rms_close Fm d r C -> fits 2 d -> usz (8 * dht_len d) ->
    rms_close Fm (mixed_radix_2xn d) (r * stage_two u tau) (Rmax C (4 * stage_two u tau * r)).
  Proof.
    intros A FI Us. rewrite stage_two_fac.
    apply (small_rms 2 d r C _ (dR d) (@radix2_cols V N (dht_len d)) (@radix2_cols R (RNum rh) (dht_len d))); auto; try lia; try lra.
    - change (INR 2) with (1 + 1). replace (1 + 1) with 2 by ring.
      assert (sqrt 2 <= 3 / 2) by (apply sqrt_le_of; lra). lra.
    - intros f O. exact (proj1 (mixed_radix_2xn_ok d f O FI)).
    - intros x Hp Lx. exact (radix2_fun_real rh (dR d) dht_spec Hp (fun y _ => eq_refl) x Lx).
    - intros Hp. apply (small_local Fm N 2 (dht_len d)); auto; try lia.
      + intros mm f f' (Lf & Lf' & Tf) q Hq. pose proof (bf2_near Fm N RN 1 _ f f' q (Rle_refl 1) Lf Lf' Hq Tf) as B.
        assert (Hs : 1 * rsum 2 mm <= 2 * rsum 2 mm) by (pose proof (tk_pos _ _ _ _ _ (Tf 0%nat ltac:(lia)));pose proof (tk_pos _ _ _ _ _ (Tf 1%nat ltac:(lia)));cbn [rsum]; lra).
        pose proof (tkn_mono _ _ RN 1 (Rle_refl 1) 1 0 3 1 _ _ _ _ ltac:(lia) ltac:(lia) Hs B) as TM. unfold FloatProof.tkn in TM. rewrite Rmult_1_l in TM. exact TM.
      + intros mm c f f' v v' Hc Tf Tv q Hq.
        pose proof (radix2_pair_tk Fm N RN 1 mm (tw2 (dht_len d) c) (@tw2 R (RNum rh) (dht_len d) c) f f' v v' (Rle_refl 1) Tf Tv) as PT.
        unfold FloatProof.tkn in PT. rewrite Rmult_1_l in PT. apply PT; auto; unfold tw2; apply (ckn_dft _ _ RN); unfold usz in *; lia.
  Qed.
  Lemma four_rms d r C : rms_close Fm d r C -> fits 4 d -> usz (8 * dht_len d) ->
    rms_close Fm (mixed_radix_4xn d) (r * stage_four u tau) (Rmax C (4 * stage_four u tau * r)).
  Proof.
    intros A FI Us. rewrite stage_four_fac.
    apply (small_rms 4 d r C _ (dR d) (@radix4_cols V N (dht_len d)) (@radix4_cols R (RNum rh) (dht_len d))); auto; try lia; try lra.
    - replace (INR 4) with (2 * 2) by (simpl; lra). rewrite sqrt_square; lra.
    - intros f O. exact (proj1 (mixed_radix_4xn_ok d f O FI)).
    - intros x Hp Lx. exact (radix4_fun_real rh (dR d) dht_spec Hp (fun y _ => eq_refl) x Lx).
    - intros Hp. apply (small_local Fm N 4 (dht_len d)); auto; try lia.
      + intros mm f f' (Lf & Lf' & Tf) q Hq. pose proof (bf4_near Fm N RN 1 _ f f' q (Rle_refl 1) Lf Lf' Hq Tf) as B.
        assert (Hs : 1 * rsum 4 mm <= 2 * rsum 4 mm) by (pose proof (tk_pos _ _ _ _ _ (Tf 0%nat ltac:(lia)));pose proof (tk_pos _ _ _ _ _ (Tf 1%nat ltac:(lia)));pose proof (tk_pos _ _ _ _ _ (Tf 2%nat ltac:(lia)));pose proof (tk_pos _ _ _ _ _ (Tf 3%nat ltac:(lia)));cbn [rsum]; lra).
        pose proof (tkn_mono _ _ RN 1 (Rle_refl 1) 2 0 4 1 _ _ _ _ ltac:(lia) ltac:(lia) Hs B) as TM. unfold FloatProof.tkn in TM. rewrite Rmult_1_l in TM. exact TM.
      + intros mm c f f' v v' Hc Tf Tv q Hq.
        pose proof (radix4_pair_tk Fm N RN 1 mm) as PT. unfold FloatProof.tkn in PT. rewrite Rmult_1_l in PT.
        apply PT; auto; try lra; apply (ckn_dft _ _ RN); unfold usz in *; lia.
  Qed.
  Lemma over_bf k (b d D : Dht V) fb (g : (list V -> list V) -> list V -> list V) r C rb Cb : (0 < k)%nat -> dht_len b = k ->
    dht_len D = (k * dht_len d)%nat -> (forall f, dht_ok d f -> dht_ok D (g f)) -> (forall f x, g f x = @mixed_fun V N b d fb f x) ->
    dht_ok b fb -> 1 <= rb -> 1 <= Cb -> rmsf Fm fb k rb Cb -> usz (k * dht_len d * 8) -> rms_close Fm d r C ->
    rms_close Fm D (r * (stage_mixed u tau rho * rb)) (Rmax C (Rmax 8 Cb * stage_mixed u tau rho * r)).
  Proof.
    intros Kp Lb LD HO EG Ob Rb1 Cb1 Fb Us A. destruct (rms_elim Fm _ _ _ A) as (P & Q & f & O & F). destruct stages1 as [S1 _].
    assert (1 <= r * (stage_mixed u tau rho * rb)) by auto.
    destruct (Nat.eq_dec (dht_len d) 0) as [Z|Z]; [eapply rms_zero; eauto; lia|].
    eapply rms_intro; eauto. eapply rmsf_ext; [intros x; apply EG|]. rewrite <- Lb in *.
    apply (mixed_rmsf b d); auto; try lia; [apply Ob|apply O].
  Qed.
  Lemma three_rms d r C : rms_close Fm d r C -> fits 3 d -> usz (3 * dht_len d * 8) ->
    rms_close Fm (mixed_radix_3xn d) (r * (stage_mixed u tau rho * (1 + (fac 4 1 - 1) * 2 * sqrt (INR 3)))) (Rmax C (Rmax 8 (fac 4 1 * 2) * stage_mixed u tau rho * r)).
  Proof.
    intros A FI Us. pose proof sqrt2_bounds. pose proof (proj1 (butterfly_ok 3 _ ltac:(lia) (bf3_kernel bf3_new))) as O.
    destruct (worst_rmsf Fm N _ 3 _ 2 (fac1 4 1) ltac:(lra) (ok_len _ _ O) (bf3_tkf Fm N RN)) as (R1 & R2 & F).
    eapply (over_bf 3 butterfly3 d); [lia|reflexivity|reflexivity| |intros f x; apply radix3_fun_mixed|exact O| | | | |]; auto.
    intros f Of. exact (proj1 (mixed_radix_3xn_ok d f Of FI)).
  Qed.
  Lemma five_rms d r C : rms_close Fm d r C -> fits 5 d -> usz (5 * dht_len d * 8) ->
    rms_close Fm (mixed_radix_5xn d) (r * (stage_mixed u tau rho * (1 + (fac 5 1 - 1) * 2 * sqrt (INR 5)))) (Rmax C (Rmax 8 (fac 5 1 * 2) * stage_mixed u tau rho * r)).
  Proof.
    intros A FI Us. pose proof sqrt2_bounds. pose proof (proj1 (butterfly_ok 5 _ ltac:(lia) (bf5_kernel bf5_new))) as O.
    destruct (worst_rmsf Fm N _ 5 _ 2 (fac1 5 1) ltac:(lra) (ok_len _ _ O) (bf5_tkf Fm N RN)) as (R1 & R2 & F).
    eapply (over_bf 5 butterfly5 d); [lia|reflexivity|reflexivity| |intros f x; apply radix5_fun_mixed|exact O| | | | |]; auto.
    intros f Of. exact (proj1 (mixed_radix_5xn_ok d f Of FI)).
  Qed.
  Lemma six_rms d r C : rms_close Fm d r C -> fits 6 d -> usz (6 * dht_len d * 8) ->
    rms_close Fm (mixed_radix_6xn d) (r * (stage_mixed u tau rho * (1 + (fac 7 2 - 1) * 4 * sqrt (INR 6)))) (Rmax C (Rmax 8 (fac 7 2 * 4) * stage_mixed u tau rho * r)).
  Proof.
    intros A FI Us. pose proof sqrt2_bounds. pose proof (proj1 (butterfly_ok 6 _ ltac:(lia) (bf6_kernel bf3_new))) as O.
    destruct (worst_rmsf Fm N _ 6 _ 4 (fac1 7 2) ltac:(lra) (ok_len _ _ O) (bf6_tkf Fm N RN)) as (R1 & R2 & F).
    eapply (over_bf 6 butterfly6 d); [lia|reflexivity|reflexivity| |intros f x; apply radix6_fun_mixed|exact O| | | | |]; auto.
    intros f Of. exact (proj1 (mixed_radix_6xn_ok d f Of FI)).
  Qed.
  Lemma split_rms dq dh d rq Cq rhh Ch : rms_close Fm dq rq Cq -> rms_close Fm dh rhh Ch -> dht_len dh = (dht_len dq * 2)%nat -> usz (dht_len dq * 4) ->
    (dht_inplace_scratch dh <= dht_len dh)%nat -> (dht_inplace_scratch dq <= dht_len dq * 4)%nat -> dht_oop_scratch dq = 0%nat -> split_radix dq dh = Ok d ->
    rms_close Fm d (Rmax rhh rq * stage_split u tau) (Rmax 4 (Rmax Ch Cq) * stage_split u tau).
  Proof.
    intros Aq Ah L Us F1 F2 F3 E'. destruct (rms_elim Fm _ _ _ Aq) as (Pq & Qq & fq & Oq & Fq), (rms_elim Fm _ _ _ Ah) as (Ph & Qh & fh & Oh & Fh).
    destruct (split_radix_ok dq dh _ _ Oq Oh L F1 F2 F3) as (d' & E & O & _ & Ld & _). rewrite E' in E. injection E as <-.
    destruct stages1 as (_ & _ & _ & S1).
    assert (1 <= Rmax rhh rq * stage_split u tau) by auto. assert (1 <= Rmax 4 (Rmax Ch Cq) * stage_split u tau) by (apply r1; auto; apply cap1; lra).
    destruct (Nat.eq_dec (dht_len dq) 0) as [Z|Z]; [eapply rms_zero; eauto; lia|].
    eapply rms_intro; eauto. rewrite stage_split_fac. rewrite L in Fh.
    apply (split_rmsf Fm N RN (dht_len dq) ltac:(lia) Us fq fh rq Cq rhh Ch); auto; try lra; [apply Oq|]. rewrite <- L. apply Oh.
  Qed.
  Lemma raders_rms m d D r C : rms_close Fm d r C -> nprime (N.of_nat (dht_len d + 1)) -> (2 <= dht_len d)%nat ->
    (N.of_nat (dht_len d + 1) <= 2 ^ 32)%N -> 3 * fac 2 2 * C <= fhi Fm -> 6 * fac 4 2 * r <= fhi Fm -> raders m d = Ok D ->
    rms_close Fm D (1 + 3 / 2 * (r * stage_rader u tau (dht_len d + 1) r - 1))
      (Rmax (6 * r * rader_products u tau r) (C * stage_rader u tau (dht_len d + 1) r)).
  Proof.
    intros A P L S K1 K2 E'. destruct (rms_elim Fm _ _ _ A) as (Pr & Qr & f & O & F).
    destruct (raders_ok m d _ O P L S) as (D' & g & s & E & _ & Hr & Hs & Or & Os & Hrs & O' & _ & LD & _).
    rewrite E' in E. injection E as <-. assert (Sp : std_prime (dht_len d + 1)) by (apply nprime_nat in P; now rewrite Nat2N.id in P).
    destruct (stage_rader1 Fm N RN (dht_len d + 1) g s ltac:(lia) Hrs r Pr) as [S1 S2].
    assert (1 <= r * stage_rader u tau (dht_len d + 1) r) by auto.
    eapply rms_intro; eauto; [lra|apply cap1; nra|].
    assert (EL : (dht_len d + 1 - 1 = dht_len d)%nat) by lia.
    apply (raders_rmsf Fm N RN); auto; try lia; try lra; [unfold usz; lia| |]; rewrite EL; auto. apply (ok_len _ _ O).
  Qed.
End Rounded.

Section Tree.
  Context {V : Type} (Fm : fmt V) (N : Num V) (RN : rounded Fm N) (m : profile).
  Notation u := (fu Fm). Notation tau := (ftau Fm). Notation rho := (frho Fm).
  Local Hint Extern 0 (Num V) => exact N : typeclass_instances.
  Let leaf t d : in_range t -> representable Fm t -> build m t = Ok d ->
    rms_close Fm d (1 + (tree_phi u tau rho t - 1) * gain t * sqrt (INR (tree_len t))) (tree_phi u tau rho t * gain t).
  Proof.
    intros I Rp E. rewrite <- (build_len m t d E). apply (worst_rms Fm N). now apply (tree_ap Fm N RN m).
  Qed.
  Let zero_or (k : nat) (d : Dht V) apply r C : (0 < k)%nat -> modest_pos d -> 1 <= r -> 1 <= C ->
    (fits k d -> rms_close Fm (nxn k d apply) r C) -> rms_close Fm (nxn k d apply) r C.
  Proof.
    intros Hk M P Q H. destruct (Nat.eq_dec (dht_len d) 0) as [Z|Z].
    - apply (rms_zero Fm _ (fun x => x)); auto; [apply nxn_zero; auto|]. change (dht_len (nxn k d apply)) with (k * dht_len d)%nat. lia.
    - apply H, fits_modest; auto. apply M. lia.
  Qed.
  Let fly_phi : tree_phi u tau rho Fly3 = fac u tau 4 1 /\ tree_phi u tau rho Fly5 = fac u tau 5 1 /\ tree_phi u tau rho Fly6 = fac u tau 7 2.
  Proof. unfold tree_phi, fac. cbn [roundings]. rewrite !pow_O, !Rmult_1_r. auto. Qed.
  Let r1 a b : 1 <= a -> 1 <= b -> 1 <= a * b.
  Proof. intros. nra. Qed.
  Let cap1 a b : 1 <= a -> 1 <= Rmax a b.
  Proof. intros. eapply Rle_trans; [eassumption|apply Rmax_l]. Qed.
  Let stor_len t : storable Fm t -> usz (8 * tree_len t) /\ True.
  Proof. destruct t; cbn [storable]; intros [U _]; auto. Qed.
  Let stor_leaf t : storable Fm t -> match t with Mixed _ _ | Two _ | Three _ | Four _ | Five _ | Six _ | Split _ _ | Rader _ => False | _ => True end -> representable Fm t.
  Proof. destruct t; intros Rp H; try contradiction; exact Rp. Qed.
  Theorem tree_rms t d : in_range t -> storable Fm t -> build m t = Ok d -> rms_close Fm d (ratio u tau rho t) (headroom u tau rho t).
  Proof.
    revert d. pose proof (stages1 Fm N RN) as (S1 & S2 & S3 & S4).
    assert (LF : forall t, in_range t -> representable Fm t -> (exists d, build m t = Ok d) ->
       1 <= 1 + (tree_phi u tau rho t - 1) * gain t * sqrt (INR (tree_len t))).
    { intros t' I Rp [d E]. apply (leaf t' d I Rp E). }
    induction t; intros d I Rp E; pose proof (proj1 (stor_len _ Rp)) as Us; try (apply (leaf _ d I (stor_leaf _ Rp Logic.I) E));
      cbn [build in_range storable ratio headroom] in *; destruct Rp as [_ Rp];
      try (destruct (build m t) as [d1| | |] eqn:B; cbn [bind] in E; try discriminate);
      try (destruct (build m t1) as [d1| | |] eqn:B1; cbn [bind] in E; try discriminate;
           destruct (build m t2) as [d2| | |] eqn:B2; cbn [bind] in E; try discriminate; destruct I as [I1 I2]; destruct Rp as [R1 R2];
           specialize (IHt1 _ I1 R1 eq_refl); specialize (IHt2 _ I2 R2 eq_refl);
           pose proof (build_len m t1 _ B1) as LB1; pose proof (build_len m t2 _ B2) as LB2).
    1: { injection E as <-. eapply mixed_rms; [exact RN| |exact IHt1|exact IHt2]. rewrite LB1, LB2. revert Us. apply usz_le. cbn [tree_len]. lia. }
    all: try (specialize (IHt _ I Rp eq_refl); pose proof (build_modest m t _ I B) as MO; pose proof (build_len m t _ B) as LB;
      cbn [tree_len] in Us; rewrite <- LB in Us; injection E as <-; assert (P1 := proj1 IHt); assert (P2 := proj1 (proj2 IHt));
      apply zero_or; [lia|exact MO| | |intros FI]).
    all: try (apply cap1; assumption).
    1: apply r1; assumption.
    1: { apply (two_rms Fm N RN d1); auto. revert Us; apply usz_le; lia. }
    2: { destruct fly_phi as (-> & _ & _). apply (three_rms Fm N RN d1); auto. revert Us; apply usz_le; lia. }
    2: apply r1; assumption.
    2: { apply (four_rms Fm N RN d1); auto. revert Us; apply usz_le; lia. }
    3: { destruct fly_phi as (_ & -> & _). apply (five_rms Fm N RN d1); auto. revert Us; apply usz_le; lia. }
    4: { destruct fly_phi as (_ & _ & ->). apply (six_rms Fm N RN d1); auto. revert Us; apply usz_le; lia. }
    1-3: apply r1; [assumption|apply r1; [assumption|]]; apply LF; [exact Logic.I|split; [unfold usz; cbn [tree_len]; lia|exact Logic.I]|eexists; reflexivity].
    2:{ destruct I as [I1 I2], Rp as (R1 & R2 & R3). specialize (IHt _ I1 R1 eq_refl). pose proof (build_len m t _ B) as LB.
        destruct (raders_prime _ _ _ E) as [P L]. rewrite <- LB in *. now apply (raders_rms Fm N RN m d1 d). }
    destruct (split_radix_len _ _ _ E) as (L1 & L2 & L3 & L4).
    pose proof (build_modest m t1 _ I1 B1) as M1. pose proof (build_modest m t2 _ I2 B2) as M2.
    destruct (Nat.eq_dec (dht_len d1) 0) as [Z|Z].
    - apply (rms_zero Fm _ (fun x => x)); [| | |lia].
      + apply r1; auto. apply cap1, IHt2.
      + apply r1; auto. apply cap1. lra.
      + eapply split_zero; eauto.
    - destruct (M1 ltac:(lia)) as [Q1 Q2]. destruct (M2 ltac:(lia)) as [H1 H2].
      assert (U4 : usz (dht_len d1 * 4)) by (rewrite LB1; revert Us; apply usz_le; cbn [tree_len]; lia).
      exact (split_rms Fm N RN d1 d2 d _ _ _ _ IHt1 IHt2 L1 U4 H1 ltac:(lia) Q2 E).
  Qed.
End Tree.
