(** * Proofs of the properties in PropsRms.v *)
From Verif Require Export RmsTree IeeeProof.
From Verif Require Import TreeProof RadersContract MathProofs RootProofs Lemmas Contract NxnProof DHTTheory RealDHT FloatTree.
From Coq Require Import Reals Lra Lia NArith List.
Local Open Scope R_scope.

Section Rms.
  Context {T : Type} (F : fmt T) (N : Num T) (RN : rounded F N).
  Lemma scale_le x : sqrt (INR (length x)) * scale F x <= norm2 (dht_spec (map (fval F) x)) + INR (length x) * flo F.
  Proof.
    set (n := length x). pose proof (r_lo _ _ RN) as L0. pose proof (pos_INR n) as P0.
    assert (E : norm2 (dht_spec (map (fval F) x)) = nrm n (dhtf n (va F x))).
    { unfold norm2, nrm, ss. f_equal. rewrite dht_spec_length, map_length. apply rsum_ext. intros j Hj.
      rewrite nth_dht_spec by (now rewrite map_length). rewrite dht_at_dhtf, map_length. reflexivity. }
    rewrite E. pose proof (sqrt_pos (INR n)) as S0. pose proof (nrm0 n (dhtf n (va F x))) as N0.
    apply sq_le_inv; [apply Rplus_le_le_0_compat; [auto|apply Rmult_le_pos; auto]|].
    replace (sqrt (INR n) * scale F x * (sqrt (INR n) * scale F x)) with ((sqrt (INR n) * sqrt (INR n)) * (scale F x * scale F x)) by ring.
    rewrite sqrt_sqrt by auto. rewrite scale_sc. fold n. rewrite sc_sq, Rmult_plus_distr_l, <- ss_dhtf, <- nrm_sq.
    assert (0 <= nrm n (dhtf n (va F x)) * (INR n * flo F)) by (apply Rmult_le_pos; [auto|apply Rmult_le_pos; auto]). nra.
  Qed.
  Lemma relative d r C : rms_close F d r C -> exists f, transforms d f /\
    forall x, length x = dht_len d -> Forall (ffin F) x ->
      let X := dht_spec (map (fval F) x) in
      C * (norm2 X + INR (dht_len d) * flo F) <= fhi F ->
      Forall (ffin F) (f x) /\ distance (map (fval F) (f x)) X <= (r - 1) * (norm2 X + INR (dht_len d) * flo F).
  Proof.
    intros (Hr & HC & f & O & E). exists f. split; auto. intros x Lx Fx X Hc. pose proof (scale_le x) as S. rewrite Lx in S.
    destruct (E x Lx Fx) as [E1 E2].
    - eapply Rle_trans; [|exact Hc]. apply Rmult_le_compat_l; [lra|exact S].
    - split; auto. eapply Rle_trans; [exact E2|]. apply Rmult_le_compat_l; [lra|exact S].
  Qed.
  Lemma energy d r C : rms_close F d r C -> exists f, transforms d f /\
    forall x, length x = dht_len d -> Forall (ffin F) x -> C * (sqrt (INR (dht_len d)) * scale F x) <= fhi F ->
      Rabs (norm2 (map (fval F) (f x)) - sqrt (INR (dht_len d)) * norm2 (map (fval F) x)) <= (r - 1) * (sqrt (INR (dht_len d)) * scale F x).
  Proof.
    intros R. destruct (rms_elim F _ _ _ R) as (Hr & HC & f & O & E). exists f. split; [exact (proj1 (transforms_ok _ _) O)|].
    intros x Lx Fx Hc. set (n := dht_len d) in *. rewrite scale_sc in *. rewrite Lx in *. destruct (E x Lx Fx Hc) as [_ E2].
    assert (Lf : length (f x) = n) by (now apply (ok_len _ _ O)).
    assert (E3 : norm2 (map (fval F) (f x)) = nrm n (va F (f x))) by (unfold norm2, nrm, ss; rewrite map_length, Lf; reflexivity).
    assert (E4 : sqrt (INR n) * norm2 (map (fval F) x) = nrm n (dhtf n (va F x))).
    { unfold nrm. rewrite ss_dhtf, sqrt_mult by (apply pos_INR || apply ss0). f_equal. unfold norm2, ss. rewrite map_length, Lx. reflexivity. }
    rewrite E3, E4. eapply Rle_trans; [|exact E2].
    pose proof (minkowski n (dhtf n (va F x)) (fun j => va F (f x) j - dhtf n (va F x) j)) as M1.
    rewrite (nrm_ext n _ (va F (f x))) in M1 by (intros; ring).
    pose proof (minkowski n (va F (f x)) (fun j => - 1 * (va F (f x) j - dhtf n (va F x) j))) as M2.
    rewrite (nrm_ext n _ (dhtf n (va F x))) in M2 by (intros; ring).
    assert (M3 : nrm n (fun j => -1 * (va F (f x) j - dhtf n (va F x) j)) = nrm n (fun j => va F (f x) j - dhtf n (va F x) j)).
    { unfold nrm. f_equal. apply rsum_ext. intros. ring. }
    rewrite M3 in M2. apply Rabs_le. lra.
  Qed.
  Lemma twice d r C : rms_close F d r C -> exists f, transforms d f /\
    forall x, length x = dht_len d -> Forall (ffin F) x -> C * r * (INR (dht_len d) * scale F x) <= fhi F ->
      Forall (ffin F) (f (f x)) /\
      distance (map (fval F) (f (f x))) (map (fun v => INR (dht_len d) * fval F v) x) <= (r * r - 1) * (INR (dht_len d) * scale F x).
  Proof.
    intros R. destruct (rms_elim F _ _ _ R) as (Hr & HC & f & O & E). exists f. split; [exact (proj1 (transforms_ok _ _) O)|].
    intros x Lx Fx Hc. set (n := dht_len d) in *. rewrite scale_sc in *. rewrite Lx in *.
    set (s := sqrt (INR n)). assert (s0 : 0 <= s) by apply sqrt_pos. assert (ss2 : s * s = INR n) by (apply sqrt_sqrt, pos_INR).
    pose proof (sc0 F n x) as S0. rewrite <- ss2 in *. set (S := sc F n x) in *.
    assert (Q : s <= s * s). { destruct n as [|n']; [unfold s; simpl; rewrite sqrt_0; lra|]. pose proof (sqrt1 (Datatypes.S n') ltac:(lia)). fold s in H. nra. }
    assert (P : 0 <= s * S) by nra.
    destruct (E x Lx Fx) as [F1 E1]; fold s.
    { eapply Rle_trans; [|exact Hc]. assert (s * S <= s * s * S) by (apply Rmult_le_compat_r; auto). fold S.
      rewrite Rmult_assoc. apply Rmult_le_compat_l; [lra|]. nra. }
    fold s S in E1. set (y := f x) in *. assert (Ly : length y = n) by (unfold y; now apply (ok_len _ _ O)).
    assert (Sy : sc F n y <= r * (s * S)).
    { unfold sc. pose proof (triangle_plus n (dhtf n (va F x)) (fun j => va F y j - dhtf n (va F x) j) (INR n * (flo F * flo F)) (Klo F n)) as M.
      rewrite (ss_ext n _ (va F y)) in M by (intros; ring). eapply Rle_trans; [exact M|].
      assert (B : sqrt (ss n (dhtf n (va F x)) + INR n * (flo F * flo F)) <= s * S).
      { apply sqrt_le_of; auto. rewrite ss_dhtf. replace (s * S * (s * S)) with (s * s * (S * S)) by ring. unfold S. rewrite sc_sq, ss2.
        pose proof (Klo F n). destruct n as [|n']; [simpl; lra|]. pose proof (INR1 (Datatypes.S n') ltac:(lia)). nra. }
      replace (r * (s * S)) with (s * S + (r - 1) * (s * S)) by ring. lra. }
    destruct (E y Ly F1) as [F2 E2]; fold s.
    { eapply Rle_trans; [|exact Hc]. apply (Rle_trans _ (C * (s * (r * (s * S))))); [|right; ring].
      apply Rmult_le_compat_l; [lra|]. apply Rmult_le_compat_l; auto. }
    split; auto. fold s in E2.
    assert (D : distance (map (fval F) (f y)) (map (fun v => s * s * fval F v) x) = nrm n (fun j => va F (f y) j - dhtf n (dhtf n (va F x)) j)).
    { assert (Lf : length (f y) = n) by (now apply (ok_len _ _ O)). unfold distance, nrm, ss. f_equal. rewrite map_length, Lf. apply rsum_ext. intros j Hj.
      rewrite dhtf_twice by auto. rewrite <- ss2. unfold va.
      replace (nth j (map (fun v => s * s * fval F v) x) 0) with (s * s * nth j (map (fval F) x) 0); [reflexivity|].
      rewrite <- (map_map (fval F) (fun v => s * s * v)). rewrite (nth_indep (map (fun v => s * s * v) (map (fval F) x)) 0 (s * s * 0)) by (rewrite !map_length; lia).
      now rewrite (map_nth (fun v => s * s * v)). }
    rewrite D. pose proof (minkowski n (fun j => va F (f y) j - dhtf n (va F y) j) (dhtf n (fun j => va F y j - dhtf n (va F x) j))) as M.
    rewrite (nrm_ext n _ (fun j => va F (f y) j - dhtf n (dhtf n (va F x)) j)) in M by (intros; rewrite dhtf_sub; ring).
    assert (N2 : nrm n (dhtf n (fun j => va F y j - dhtf n (va F x) j)) = s * nrm n (fun j => va F y j - dhtf n (va F x) j)).
    { unfold nrm. rewrite ss_dhtf. apply sqrt_mult; [apply pos_INR|apply ss0]. }
    rewrite N2 in M. eapply Rle_trans; [exact M|].
    assert (A1 : (r - 1) * (s * sc F n y) <= (r - 1) * (s * (r * (s * S)))) by (apply Rmult_le_compat_l; [lra|]; apply Rmult_le_compat_l; auto).
    assert (A2 : s * nrm n (fun j => va F y j - dhtf n (va F x) j) <= s * ((r - 1) * (s * S))) by (apply Rmult_le_compat_l; auto).
    lra.
  Qed.

  Definition close m t n eps C : Prop := exists d, build m t = Ok d /\ dht_len d = n /\ rms_close F d (1 + eps) C.
  Lemma close_relative m t n eps C : close m t n eps C -> relative_error F N m t n eps C.
  Proof.
    intros (d & E & L & R). destruct (relative d _ _ R) as (f & O & X). rewrite L in X.
    exists d, f. split; [exact E|]. split; [exact L|]. split; auto. intros x Lx Fx. cbv zeta in *. intros Hc.
    destruct (X x Lx Fx Hc) as [X1 X2]. split; auto. eapply Rle_trans; [exact X2|]. right. f_equal. ring.
  Qed.
End Rms.

(** ** powers of two *)
Section Towers.
  Context {T : Type} (F : fmt T) (N : Num T) (RN : rounded F N) (m : profile).
  Local Hint Extern 0 (Num T) => exact N : typeclass_instances.
  Notation u := (fu F). Notation tau := (ftau F). Notation rho := (frho F).
  Lemma usz_le' a b : (a <= b)%nat -> usz b -> usz a.
  Proof. unfold usz. lia. Qed.

  (** one more stage *)
  Lemma one_more k c s a b r : 0 <= a -> s <= 1 + a -> 1 <= s -> 0 <= b -> a * (65 / 64) <= b -> INR k <= 64 -> 0 <= c <= 4 -> b <= / 8192 ->
    1 <= r -> r <= 1 + (INR k + c) * b -> r * s <= 1 + (INR (S k) + c) * b.
  Proof.
    intros A S1 S2 B AB K C B2 R1 R2. rewrite S_INR. set (i := INR k) in *. assert (0 <= i) by apply pos_INR.
    assert (X : (i + c) * b <= / 64) by nra. assert (Y : a * ((i + c) * b) <= a * / 64) by (apply Rmult_le_compat_l; auto).
    assert (r * s <= (1 + (i + c) * b) * (1 + a)) by (apply Rmult_le_compat; lra). lra.
  Qed.

  Lemma fours_build k : exists d, build m (fours k) = Ok d.
  Proof. induction k as [|k [d E]]; cbn [fours build]; [eexists; reflexivity|]. rewrite E. eexists. reflexivity. Qed.
  Lemma fours_len k : tree_len (fours k) = (16 * 4 ^ k)%nat.
  Proof. induction k; cbn [fours tree_len]; [reflexivity|]. rewrite IHk, Nat.pow_succ_r'. lia. Qed.
  Lemma fours_range k : in_range (fours k).
  Proof. induction k; cbn; auto. Qed.
  Lemma fours_repr k : usz (8 * (16 * 4 ^ k)) -> storable F (fours k).
  Proof.
    induction k; intros U; [split; [reflexivity|exact I]|]. rewrite <- fours_len in U. split; [exact U|]. rewrite fours_len in U.
    apply IHk. revert U. apply usz_le'. rewrite Nat.pow_succ_r'. lia.
  Qed.
  Lemma pow_small k b : (1 < b)%nat -> usz (8 * (16 * b ^ k)) -> INR k <= 64.
  Proof.
    intros B U. assert (K : (k <= 64)%nat).
    { destruct (Nat.le_gt_cases k 64) as [|K]; auto. exfalso. unfold usz in U. apply N.lt_nge in U. apply U.
      rewrite !Nat2N.inj_mul, Nat2N.inj_pow. apply (N.le_trans _ (N.of_nat b ^ N.of_nat k)); [|nia].
      apply (N.le_trans _ (2 ^ N.of_nat k)); [apply N.pow_le_mono_r; lia|apply N.pow_le_mono_l; lia]. }
    replace 64 with (INR 64) by (simpl; lra). now apply le_INR.
  Qed.

  Section Numbers.
    Variables (a b c : R).
    Hypothesis a0 : 0 <= a. Hypothesis b0 : 0 <= b. Hypothesis ab : a * (65 / 64) <= b. Hypothesis c4 : 0 <= c <= 4. Hypothesis b1 : b <= / 8192.
    Hypothesis base : (tree_phi u tau rho Fly16 - 1) * 8 <= c * b.
    Let phi16 : 1 <= tree_phi u tau rho Fly16.
    Proof. apply (f3_1 F N RN). Qed.
    Let leaf16 : ratio u tau rho Fly16 = 1 + (tree_phi u tau rho Fly16 - 1) * 8.
    Proof.
      cbn [ratio gain tree_len]. replace (INR 16) with (4 * 4) by (simpl; lra). rewrite sqrt_square by lra. lra.
    Qed.
    Lemma fours_ratio k : INR k <= 64 -> stage_four u tau <= 1 + a ->
      1 <= ratio u tau rho (fours k) <= 1 + (INR k + c) * b /\ headroom u tau rho (fours k) <= 8.
    Proof.
      intros K S. destruct (stages1 F N RN) as (_ & _ & S1 & _). induction k.
      - cbn [fours]. rewrite leaf16. cbn [headroom gain]. change (INR 0) with 0. split; [split; lra|]. nra.
      - rewrite S_INR in K. destruct IHk as [[I1 I2] I3]; [lra|]. cbn [fours ratio headroom].
        assert (M : ratio u tau rho (fours k) * stage_four u tau <= 1 + (INR (Datatypes.S k) + c) * b).
        { apply (one_more k c (stage_four u tau) a b); auto. lra. }
        split; [split; [nra|exact M]|]. apply Rmax_lub; auto.
        rewrite S_INR in M. assert ((INR k + 1 + c) * b <= / 64) by (pose proof (pos_INR k); nra). lra.
    Qed.
    Lemma fours_close k : usz (8 * (16 * 4 ^ k)) -> stage_four u tau <= 1 + a ->
      close F N m (fours k) (16 * 4 ^ k) ((INR k + c) * b) 8.
    Proof.
      intros U S. destruct (fours_build k) as [d E]. pose proof (pow_small k 4 ltac:(lia) U) as K.
      destruct (fours_ratio k K S) as [[R1 R2] H].
      pose proof (rms_mono F _ _ _ _ _ R2 H (tree_rms F N RN m _ d (fours_range k) (fours_repr k U) E)) as R.
      exists d. split; [exact E|]. split; [|exact R]. rewrite <- fours_len. exact (build_len m _ _ E).
    Qed.

    Lemma splits_len k : tree_len (fst (splits k)) = (8 * 2 ^ k)%nat /\ tree_len (snd (splits k)) = (16 * 2 ^ k)%nat.
    Proof.
      induction k; [split; reflexivity|]. cbn [splits]. destruct (splits k) as [q h]. cbn [fst snd tree_len] in *. rewrite Nat.pow_succ_r'. lia.
    Qed.
    Lemma splits_range k : in_range (fst (splits k)) /\ in_range (snd (splits k)).
    Proof. induction k; [split; exact I|]. cbn [splits]. destruct (splits k) as [q h]. cbn [fst snd in_range] in *. tauto. Qed.
    Lemma splits_repr k : usz (8 * (16 * 2 ^ k)) -> storable F (fst (splits k)) /\ storable F (snd (splits k)).
    Proof.
      induction k; intros U; [split; (split; [|exact I]); reflexivity|].
      destruct IHk as [I1 I2]; [revert U; apply usz_le'; rewrite Nat.pow_succ_r'; lia|].
      pose proof (proj2 (splits_len (S k))) as L. rewrite <- L in U.
      cbn [splits] in *. destruct (splits k) as [q h]. cbn [fst snd] in *. split; auto. split; auto.
    Qed.
    Lemma splits_build k : (exists d, build m (fst (splits k)) = Ok d) /\ (exists d, build m (snd (splits k)) = Ok d).
    Proof.
      induction k as [|k [[dq Eq] [dh Eh]]]; [split; eexists; reflexivity|]. pose proof (splits_len k) as [L1 L2].
      cbn [splits]. destruct (splits k) as [q h]. cbn [fst snd] in *. split; [now exists dh|]. cbn [build]. rewrite Eq, Eh. cbn [bind].
      apply build_len in Eq. apply build_len in Eh. unfold split_radix, rassert.
      replace (dht_len dh) with (dht_len dq * 2)%nat by lia. rewrite Nat.eqb_refl. cbn [bind]. eexists. reflexivity.
    Qed.
    Let leaf8 : ratio u tau rho Fly8 <= 1 + (tree_phi u tau rho Fly16 - 1) * 8 /\ 1 <= ratio u tau rho Fly8 /\ headroom u tau rho Fly8 <= 2 * tree_phi u tau rho Fly16.
    Proof.
      cbn [ratio gain tree_len headroom]. assert (P1 : 1 <= tree_phi u tau rho Fly8) by apply (f3_1 F N RN 5 1 0).
      assert (P2 : tree_phi u tau rho Fly8 <= tree_phi u tau rho Fly16) by (apply (f3_mono F N RN 5 1 0 6 1 0); lia).
      assert (S : sqrt (INR 8) <= 3) by (apply sqrt_le_of; simpl; lra). pose proof (sqrt_pos (INR 8)). nra.
    Qed.
    Lemma splits_ratio k : INR k <= 64 -> stage_split u tau <= 1 + a ->
      1 <= ratio u tau rho (fst (splits k)) <= 1 + (INR k + c) * b /\ 1 <= ratio u tau rho (snd (splits k)) <= 1 + (INR k + c) * b /\
      headroom u tau rho (fst (splits k)) <= 4 * (1 + (INR k + c) * b) /\ headroom u tau rho (snd (splits k)) <= 4 * (1 + (INR k + c) * b).
    Proof.
      intros K S. destruct (stages1 F N RN) as (_ & _ & _ & S1). induction k.
      - cbn [splits fst snd]. rewrite leaf16. destruct leaf8 as (L1 & L2 & L3). cbn [headroom gain] in *. change (INR 0) with 0.
        assert (0 <= c * b) by nra. repeat split; try lra.
      - rewrite S_INR in K. destruct IHk as ([I1 I2] & [I3 I4] & I5 & I6); [lra|]. cbn [splits]. destruct (splits k) as [q h].
        cbn [fst snd ratio headroom] in *.
        assert (M : Rmax (ratio u tau rho h) (ratio u tau rho q) * stage_split u tau <= 1 + (INR (Datatypes.S k) + c) * b).
        { apply (one_more k c (stage_split u tau) a b); auto; try lra; [eapply Rle_trans; [exact I3|apply Rmax_l]|apply Rmax_lub; auto]. }
        assert (M1 : 1 <= Rmax (ratio u tau rho h) (ratio u tau rho q)) by (eapply Rle_trans; [exact I3|apply Rmax_l]).
        assert (Hk : (1 + (INR k + c) * b) * stage_split u tau <= 1 + (INR (Datatypes.S k) + c) * b).
        { apply (one_more k c (stage_split u tau) a b); auto; try lra. }
        assert (Mn : 1 + (INR k + c) * b <= 1 + (INR (Datatypes.S k) + c) * b) by (rewrite S_INR; nra).
        split; [lra|]. split; [split; [nra|exact M]|]. split; [lra|].
        apply (Rle_trans _ (4 * (1 + (INR k + c) * b) * stage_split u tau)).
        + apply Rmult_le_compat_r; [lra|]. apply Rmax_lub; [|apply Rmax_lub; auto]. pose proof (pos_INR k). nra.
        + lra.
    Qed.
    Lemma splits_close k : usz (8 * (16 * 2 ^ k)) -> stage_split u tau <= 1 + a ->
      close F N m (snd (splits k)) (16 * 2 ^ k) ((INR k + c) * b) 8.
    Proof.
      intros U S. destruct (splits_build k) as [_ [d E]]. pose proof (pow_small k 2 ltac:(lia) U) as K.
      destruct (splits_ratio k K S) as (_ & [R1 R2] & _ & H).
      assert (H8 : headroom u tau rho (snd (splits k)) <= 8) by (pose proof (pos_INR k); assert ((INR k + c) * b <= / 64) by nra; lra).
      pose proof (rms_mono F _ _ _ _ _ R2 H8 (tree_rms F N RN m _ d (proj2 (splits_range k)) (proj2 (splits_repr k U)) E)) as R.
      exists d. split; [exact E|]. split; [|exact R]. rewrite <- (proj2 (splits_len k)). exact (build_len m _ _ E).
    Qed.
  End Numbers.
End Towers.

(** ** primes *)
Section Primes.
  Context {T : Type} (F : fmt T) (N : Num T) (RN : rounded F N) (m : profile).
  Local Hint Extern 0 (Num T) => exact N : typeclass_instances.
  Notation u := (fu F). Notation tau := (ftau F). Notation rho := (frho F).
  Lemma products_ge r : 1 <= r -> r <= rader_products u tau r.
  Proof. intros. unfold rader_products. pose proof (fac_1 F N RN 6 2) as H1. unfold fac in H1. nra. Qed.
  Lemma rader_ratio l r : (3 <= l)%nat -> 1 <= r <= 129 / 128 ->
    1 + 3 / 2 * (r * stage_rader u tau l r - 1) <= 1 + 12 * sqrt (INR l) * (rader_products u tau r - 1).
  Proof.
    intros L [R1 R2]. pose proof (products_ge r R1) as P. unfold stage_rader. set (w := rader_products u tau r) in *. set (s := sqrt (INR l)).
    assert (S : 173 / 100 <= s).
    { unfold s. rewrite <- (sqrt_square (173 / 100)) by lra. apply sqrt_le_1_alt. apply (le_INR 3) in L. simpl in L. lra. }
    assert (E : 3 / 2 * (r * (r + (w - 1) * (6 * r * s + 1)) - 1) <= 12 * s * (w - 1)); [|lra].
    assert (A : r * r - 1 <= (w - 1) * (2 + 1 / 128)) by nra.
    assert (B : r * (6 * r * s + 1) <= 6 * (51 / 50) * s + 129 / 128).
    { assert (r * r <= 51 / 50) by nra. assert (r * r * s <= 51 / 50 * s) by (apply Rmult_le_compat_r; lra). lra. }
    assert (C : (w - 1) * (r * (6 * r * s + 1)) <= (w - 1) * (6 * (51 / 50) * s + 129 / 128)) by (apply Rmult_le_compat_l; lra).
    assert (D : (w - 1) * (2 + 1 / 128 + 129 / 128 + 6 * (51 / 50) * s) * (3 / 2) <= (w - 1) * (12 * s)).
    { rewrite Rmult_assoc. apply Rmult_le_compat_l; lra. }
    lra.
  Qed.
  Lemma rader_rms t d : in_range (Rader t) -> storable F (Rader t) -> ratio u tau rho t <= 129 / 128 -> build m (Rader t) = Ok d ->
    rms_close F d (1 + 12 * sqrt (INR (dht_len d)) * (rader_products u tau (ratio u tau rho t) - 1)) (headroom u tau rho (Rader t)).
  Proof.
    intros I S R E. pose proof (tree_rms F N RN m (Rader t) d I S E) as Q. revert Q. apply rms_mono; [|lra].
    pose proof (build_len m _ _ E) as L. cbn [build] in E. destruct (build m t) as [d1| | |] eqn:B; cbn [bind] in E; try discriminate.
    destruct (raders_prime _ _ _ E) as [_ L2]. pose proof (build_len m _ _ B) as L1. rewrite L. cbn [tree_len ratio].
    cbn [in_range storable] in I, S. destruct I as [I _], S as (_ & S & _).
    pose proof (proj1 (tree_rms F N RN m t d1 I S B)). apply (rader_ratio); [lia|lra].
  Qed.

  Section Numbers.
    Variables (a b c c' : R).
    Hypothesis a0 : 0 <= a. Hypothesis b0 : 0 <= b. Hypothesis ab : a * (65 / 64) <= b. Hypothesis c4 : 0 <= c <= 4. Hypothesis b1 : b <= / 1048576.
    Hypothesis base : (tree_phi u tau rho Fly16 - 1) * 8 <= c * b.
    Hypothesis S : stage_split u tau <= 1 + a.
    Hypothesis c5 : 0 <= c' <= 5.
    Hypothesis W : forall k, 0 <= k <= 64 -> rader_products u tau (1 + (k + c) * b) <= 1 + (k + c') * b.
    Hypothesis hi : 100 <= fhi F.
    Hypothesis f22 : fac u tau 4 2 <= 2.
    Lemma primes_close k : nprime (N.of_nat (16 * 2 ^ k + 1)) -> (N.of_nat (16 * 2 ^ k + 1) <= 2 ^ 32)%N ->
      close F N m (Rader (snd (splits k))) (16 * 2 ^ k + 1) (12 * sqrt (INR (16 * 2 ^ k + 1)) * ((INR k + c') * b)) 64.
    Proof.
      intros P K. set (l := (16 * 2 ^ k + 1)%nat) in *.
      assert (U : usz (8 * (16 * 2 ^ k))) by (unfold usz; unfold l in K; lia).
      destruct (splits_build N m k) as [_ [d1 E1]]. pose proof (proj2 (splits_len k)) as TL. pose proof (build_len m _ _ E1) as L1. rewrite TL in L1.
      pose proof (pow_small k 2 ltac:(lia) U) as K64. pose proof (pos_INR k) as K0.
      assert (K28 : INR k <= 28).
      { assert (k <= 28)%nat; [|replace 28 with (INR 28) by (simpl; lra); now apply le_INR].
        destruct (Nat.le_gt_cases k 28) as [|Q]; auto. exfalso. unfold l in K.
        rewrite Nat2N.inj_add, Nat2N.inj_mul, Nat2N.inj_pow in K.
        assert (H1 : (2 ^ 29 <= N.of_nat 2 ^ N.of_nat k)%N) by (change (N.of_nat 2) with 2%N; apply N.pow_le_mono_r; lia).
        change (2 ^ 29)%N with 536870912%N in H1. lia. }
      destruct (splits_ratio F N RN a b c a0 b0 ab c4 ltac:(lra) base k K64 S) as (_ & [R1 R2] & _ & H).
      set (r := ratio u tau rho (snd (splits k))) in *. set (h := headroom u tau rho (snd (splits k))) in *.
      assert (kb : (INR k + c) * b <= / 8192) by nra. assert (kb' : (INR k + c') * b <= 33 * / 1048576) by nra.
      assert (SP : storable F (snd (splits k))) by (apply splits_repr; auto).
      destruct (splits_range c c4 k) as [_ IR].
      pose proof (tree_rms F N RN m _ d1 IR SP E1) as T1. destruct (rms_elim F _ _ _ T1) as (_ & H1 & f1 & O1 & _). fold h in H1.
      destruct (raders_ok m d1 f1 O1) as (d & g & s & E & _); try (rewrite L1; assumption); [rewrite L1; pose proof (Nat.pow_nonzero 2 k); lia|].
      assert (B : build m (Rader (snd (splits k))) = Ok d) by (cbn [build]; rewrite E1; exact E).
      assert (F2 : fac u tau 2 2 <= 2) by (eapply Rle_trans; [apply (fac_mono F N RN 2 2 4 2); lia|exact f22]).
      assert (IN : in_range (Rader (snd (splits k)))) by (cbn [in_range]; rewrite TL; auto).
      assert (ST : storable F (Rader (snd (splits k)))).
      { cbn [storable]. cbn [tree_len]. rewrite TL. fold r h. split; [unfold usz; unfold l in K; lia|]. split; auto.
        change ((1 + u) ^ 2 * (1 + tau) ^ 2) with (fac u tau 2 2). change ((1 + u) ^ 4 * (1 + tau) ^ 2) with (fac u tau 4 2).
        pose proof (fac_1 F N RN 2 2). pose proof (fac_1 F N RN 4 2). split; nra. }
      pose proof (rader_rms _ d IN ST ltac:(fold r; lra) B) as Q. fold r in Q.
      assert (w1 : rader_products u tau r - 1 <= (INR k + c') * b).
      { pose proof (W (INR k) ltac:(lra)) as W1. assert (rader_products u tau r <= rader_products u tau (1 + (INR k + c) * b)); [|lra].
        unfold rader_products. apply Rmult_le_compat_l; [|exact R2]. pose proof (fac_1 F N RN 6 2) as G. unfold fac in G. lra. }
      pose proof (products_ge r R1) as w0. pose proof (build_len m _ _ B) as L. cbn [tree_len] in L. rewrite TL in L. fold l in L. rewrite L in Q.
      assert (s0 : 0 <= sqrt (INR l)) by apply sqrt_pos.
      assert (s1 : sqrt (INR l) <= 65536).
      { apply sqrt_le_of; [lra|]. replace (65536 * 65536) with (IZR (2 ^ 32)) by (rewrite <- mult_IZR; reflexivity). rewrite INR_IZR_INZ. apply IZR_le. lia. }
      assert (HH : headroom u tau rho (Rader (snd (splits k))) <= 64).
      { cbn [headroom]. fold r h. rewrite TL. fold l. set (w := rader_products u tau r) in *. set (s' := sqrt (INR l)) in *. apply Rmax_lub; [nra|].
        assert (ST1 : stage_rader u tau l r <= 15).
        { unfold stage_rader. fold w s'. assert (6 * r * s' + 1 <= 400000) by nra. assert (0 <= 6 * r * s' + 1) by nra.
          assert ((w - 1) * (6 * r * s' + 1) <= 33 * / 1048576 * 400000) by (apply Rmult_le_compat; lra). lra. }
        assert (0 <= stage_rader u tau l r).
        { unfold stage_rader. fold w s'. assert (0 <= (w - 1) * (6 * r * s' + 1)); [|lra]. apply Rmult_le_pos; [lra|]. nra. }
        apply (Rle_trans _ (17 / 4 * 15)); [apply Rmult_le_compat|]; lra. }
      assert (RR : 1 + 12 * sqrt (INR l) * (rader_products u tau r - 1) <= 1 + 12 * sqrt (INR l) * ((INR k + c') * b)).
      { apply Rplus_le_compat_l. apply Rmult_le_compat_l; [lra|exact w1]. }
      exists d. split; [exact B|]. split; [exact L|]. exact (rms_mono F _ _ _ _ _ RR HH Q).
    Qed.
  End Numbers.
End Primes.

Local Lemma P24 : bpow radix2 (-24) = / 16777216. Proof. reflexivity. Qed.
Local Lemma P45 : bpow radix2 (-45) = / 35184372088832. Proof. reflexivity. Qed.
Local Lemma P46 : bpow radix2 (-46) = / 70368744177664. Proof. reflexivity. Qed.
Local Lemma P53 : bpow radix2 (-53) = / 9007199254740992. Proof. reflexivity. Qed.
Local Lemma P18 : bpow radix2 (-18) = / 262144. Proof. reflexivity. Qed.
Local Lemma P20 : bpow radix2 (-20) = / 1048576. Proof. reflexivity. Qed.
Local Lemma P42 : bpow radix2 (-42) = / 4398046511104. Proof. reflexivity. Qed.
Local Lemma P44 : bpow radix2 (-44) = / 17592186044416. Proof. reflexivity. Qed.

Lemma fours_close32 L m k : accurate L -> usz (8 * (16 * 4 ^ k)) ->
  close F32 (Num_f32 L) m (fours k) (16 * 4 ^ k) ((INR k + 1) * bpow radix2 (-18)) 8.
Proof.
  intros A U. apply (fours_close F32 _ (ok32 L A) m (41 * / 16777216)); auto; unfold stage_four, tree_phi; cbn [roundings F32 fu ftau frho]; rewrite ?P18, ?P24, ?P45; simpl; lra.
Qed.
Lemma C64_fours32_proof L m k : accurate L -> usz (8 * (16 * 4 ^ k)) ->
  relative_error F32 (Num_f32 L) m (fours k) (16 * 4 ^ k) ((INR k + 1) * bpow radix2 (-18)) 8.
Proof. intros A U. apply (close_relative F32 _ (ok32 L A)). now apply fours_close32. Qed.
Lemma fours_close64 L m k : accurate L -> usz (8 * (16 * 4 ^ k)) ->
  close F64 (Num_f64 L) m (fours k) (16 * 4 ^ k) ((INR k + 1) * bpow radix2 (-42)) 8.
Proof.
  intros A U. apply (fours_close F64 _ (ok64 L A) m (9 * / 70368744177664)); auto; unfold stage_four, tree_phi; cbn [roundings F64 fu ftau frho]; rewrite ?P42, ?P46, ?P53; simpl; lra.
Qed.
Lemma C64_fours64_proof L m k : accurate L -> usz (8 * (16 * 4 ^ k)) ->
  relative_error F64 (Num_f64 L) m (fours k) (16 * 4 ^ k) ((INR k + 1) * bpow radix2 (-42)) 8.
Proof. intros A U. apply (close_relative F64 _ (ok64 L A)). now apply fours_close64. Qed.
Lemma splits_close32 L m k : accurate L -> usz (8 * (16 * 2 ^ k)) ->
  close F32 (Num_f32 L) m (snd (splits k)) (16 * 2 ^ k) ((INR k + 4) * bpow radix2 (-20)) 8.
Proof.
  intros A U. apply (splits_close F32 _ (ok32 L A) m (61 / 4 * / 16777216)); auto; unfold stage_split, tree_phi; cbn [roundings F32 fu ftau frho]; rewrite ?P20, ?P24, ?P45; simpl; lra.
Qed.
Lemma C64_splits32_proof L m k : accurate L -> usz (8 * (16 * 2 ^ k)) ->
  relative_error F32 (Num_f32 L) m (snd (splits k)) (16 * 2 ^ k) ((INR k + 4) * bpow radix2 (-20)) 8.
Proof. intros A U. apply (close_relative F32 _ (ok32 L A)). now apply splits_close32. Qed.
Lemma splits_close64 L m k : accurate L -> usz (8 * (16 * 2 ^ k)) ->
  close F64 (Num_f64 L) m (snd (splits k)) (16 * 2 ^ k) ((INR k + 3) * bpow radix2 (-44)) 8.
Proof.
  intros A U. apply (splits_close F64 _ (ok64 L A) m (7 / 2 * / 70368744177664)); auto; unfold stage_split, tree_phi; cbn [roundings F64 fu ftau frho]; rewrite ?P44, ?P46, ?P53; simpl; lra.
Qed.
Lemma C64_splits64_proof L m k : accurate L -> usz (8 * (16 * 2 ^ k)) ->
  relative_error F64 (Num_f64 L) m (snd (splits k)) (16 * 2 ^ k) ((INR k + 3) * bpow radix2 (-44)) 8.
Proof. intros A U. apply (close_relative F64 _ (ok64 L A)). now apply splits_close64. Qed.
Lemma primes_close32 L m k : accurate L -> nprime (N.of_nat (16 * 2 ^ k + 1)) -> (N.of_nat (16 * 2 ^ k + 1) <= 2 ^ 32)%N ->
  close F32 (Num_f32 L) m (Rader (snd (splits k))) (16 * 2 ^ k + 1) (12 * sqrt (INR (16 * 2 ^ k + 1)) * ((INR k + 5) * bpow radix2 (-20))) 64.
Proof.
  intros A P K. apply (primes_close F32 _ (ok32 L A) m (61 / 4 * / 16777216) _ 4 5); auto; unfold stage_split, tree_phi, rader_products, fac; cbn [roundings F32 fu ftau frho fhi]; rewrite ?P20, ?P24, ?P45; simpl; try lra.
  all: intros; nra.
Qed.
Lemma C64_primes32_proof L m k : accurate L -> nprime (N.of_nat (16 * 2 ^ k + 1)) -> (N.of_nat (16 * 2 ^ k + 1) <= 2 ^ 32)%N ->
  relative_error F32 (Num_f32 L) m (Rader (snd (splits k))) (16 * 2 ^ k + 1) (12 * sqrt (INR (16 * 2 ^ k + 1)) * ((INR k + 5) * bpow radix2 (-20))) 64.
Proof. intros A P K. apply (close_relative F32 _ (ok32 L A)). now apply primes_close32. Qed.
Lemma primes_close64 L m k : accurate L -> nprime (N.of_nat (16 * 2 ^ k + 1)) -> (N.of_nat (16 * 2 ^ k + 1) <= 2 ^ 32)%N ->
  close F64 (Num_f64 L) m (Rader (snd (splits k))) (16 * 2 ^ k + 1) (12 * sqrt (INR (16 * 2 ^ k + 1)) * ((INR k + 4) * bpow radix2 (-44))) 64.
Proof.
  intros A P K. apply (primes_close F64 _ (ok64 L A) m (7 / 2 * / 70368744177664) _ 3 4); auto; unfold stage_split, tree_phi, rader_products, fac; cbn [roundings F64 fu ftau frho fhi]; rewrite ?P44, ?P46, ?P53; simpl; try lra.
  all: intros; nra.
Qed.
Lemma C64_primes64_proof L m k : accurate L -> nprime (N.of_nat (16 * 2 ^ k + 1)) -> (N.of_nat (16 * 2 ^ k + 1) <= 2 ^ 32)%N ->
  relative_error F64 (Num_f64 L) m (Rader (snd (splits k))) (16 * 2 ^ k + 1) (12 * sqrt (INR (16 * 2 ^ k + 1)) * ((INR k + 4) * bpow radix2 (-44))) 64.
Proof. intros A P K. apply (close_relative F64 _ (ok64 L A)). now apply primes_close64. Qed.
Lemma relative_weaken {T} (F : fmt T) N m t n eps eps' C : 0 <= flo F -> eps <= eps' -> relative_error F N m t n eps C -> relative_error F N m t n eps' C.
Proof.
  intros L0 E (d & f & B & Ln & O & X). exists d, f. repeat (split; auto). 1: now apply (X x). eapply Rle_trans; [now apply (X x)|].
  apply Rmult_le_compat_r; auto. apply Rplus_le_le_0_compat; [apply sqrt_pos|apply Rmult_le_pos; [apply pos_INR|auto]].
Qed.
Lemma C64_million_proof L m : accurate L -> exists n, N.of_nat n = 1048576%N /\
  relative_error F32 (Num_f32 L) m (fours 8) n (/ 20000) 8 /\ relative_error F64 (Num_f64 L) m (fours 8) n (/ 400000000000) 8 /\
  relative_error F32 (Num_f32 L) m (snd (splits 16)) n (/ 50000) 8 /\ relative_error F64 (Num_f64 L) m (snd (splits 16)) n (/ 900000000000) 8.
Proof.
  intros A. exists (16 * 4 ^ 8)%nat. split; [rewrite Nat2N.inj_mul, Nat2N.inj_pow; reflexivity|].
  assert (U : usz (8 * (16 * 4 ^ 8))) by (unfold usz; rewrite !Nat2N.inj_mul, Nat2N.inj_pow; reflexivity).
  assert (E : (16 * 4 ^ 8 = 16 * 2 ^ 16)%nat) by (change 4%nat with (2 ^ 2)%nat; now rewrite <- Nat.pow_mul_r).
  assert (L1 : 0 <= flo F32) by (cbn [F32 flo]; apply bpow_ge_0). assert (L2 : 0 <= flo F64) by (cbn [F64 flo]; apply bpow_ge_0).
  split; [|split; [|split]].
  - eapply relative_weaken; [exact L1| |apply C64_fours32_proof; auto]. rewrite P18. simpl. lra.
  - eapply relative_weaken; [exact L2| |apply C64_fours64_proof; auto]. rewrite P42. simpl. lra.
  - rewrite E in *. eapply relative_weaken; [exact L1| |apply C64_splits32_proof; auto]. rewrite P20. simpl. lra.
  - rewrite E in *. eapply relative_weaken; [exact L2| |apply C64_splits64_proof; auto]. rewrite P44. simpl. lra.
Qed.
Lemma C64_65537_proof L m : accurate L -> exists n, N.of_nat n = 65537%N /\
  relative_error F32 (Num_f32 L) m (Rader (snd (splits 12))) n (/ 20) 64 /\
  relative_error F64 (Num_f64 L) m (Rader (snd (splits 12))) n (/ 340000000) 64.
Proof.
  intros A. exists (16 * 2 ^ 12 + 1)%nat. set (l := (16 * 2 ^ 12 + 1)%nat).
  assert (E : N.of_nat l = 65537%N) by (unfold l; rewrite Nat2N.inj_add, Nat2N.inj_mul, Nat2N.inj_pow; reflexivity).
  assert (P : nprime (N.of_nat l)) by (rewrite E; apply miller_rabin_ok; vm_compute; reflexivity).
  assert (K : (N.of_nat l <= 2 ^ 32)%N) by (rewrite E; discriminate).
  assert (S : sqrt (INR l) <= 2561 / 10).
  { apply sqrt_le_of; [lra|]. replace (INR l) with 65537; [lra|]. rewrite INR_IZR_INZ. rewrite <- nat_N_Z, E. reflexivity. }
  assert (L1 : 0 <= flo F32) by (cbn [F32 flo]; apply bpow_ge_0). assert (L2 : 0 <= flo F64) by (cbn [F64 flo]; apply bpow_ge_0).
  split; [exact E|]. pose proof (sqrt_pos (INR l)). split.
  - eapply relative_weaken; [exact L1| |apply (C64_primes32_proof L m 12); auto]. rewrite P20. fold l. replace (INR 12) with 12 by (simpl; lra). lra.
  - eapply relative_weaken; [exact L2| |apply (C64_primes64_proof L m 12); auto]. rewrite P44. fold l. replace (INR 12) with 12 by (simpl; lra). lra.
Qed.
Lemma C64_rader_case_proof L m : accurate L -> in_range (Rader Fly16) /\ storable F64 (Rader Fly16) /\
  ratio (fu F64) (ftau F64) (frho F64) Fly16 <= 129 / 128 /\ exists d, @build _ (Num_f64 L) m (Rader Fly16) = Ok d.
Proof.
  intros A. split; [split; [exact I|discriminate]|].
  assert (R : 1 <= ratio (fu F64) (ftau F64) (frho F64) Fly16 <= 129 / 128 /\ headroom (fu F64) (ftau F64) (frho F64) Fly16 <= 3).
  { cbn [ratio headroom gain tree_len]. unfold tree_phi. cbn [roundings F64 fu ftau frho]. rewrite P46, P53.
    replace (INR 16) with (4 * 4) by (simpl; lra). rewrite sqrt_square by lra. simpl. lra. }
  destruct R as [[R1 R2] R3]. split; [|split; [exact R2|]].
  - cbn [storable]. split; [reflexivity|]. split; [split; [reflexivity|exact I]|].
    set (h := headroom _ _ _ Fly16) in *. set (r := ratio _ _ _ Fly16) in *. cbn [F64 fu ftau fhi]. rewrite P46, P53.
    assert (100 <= bpow radix2 1023) by (simpl; lra). simpl pow. split; lra.
  - destruct (rms_elim F64 _ _ _ (tree_rms F64 _ (ok64 L A) m Fly16 _ I (conj eq_refl I) eq_refl)) as (_ & _ & f & O & _).
    destruct (@raders_ok _ (Num_f64 L) m _ f O) as (d & g & s & E & _); [apply miller_rabin_ok; vm_compute; reflexivity|apply Nat.leb_le; reflexivity|discriminate|].
    exists d. exact E.
Qed.
