(** * Root-mean-square errors: leaves, rows and columns *)
From Verif Require Import Lemmas Contract NxnProof NxnInst MixedRadixProof MixedContract RealDHT DHTTheory MixedReal
  ButterfliesReal NxnReal FloatTree FloatMixed.
From Verif Require Export L2 RmsSpec FloatProof.
From Coq Require Import Reals Lra Lia List Arith Psatz.
Import ListNotations.
Local Open Scope R_scope.

Section Rms.
  Context {V : Type} (Fm : fmt V) (N : Num V) (RN : rounded Fm N).
  Notation u := (fu Fm). Notation tau := (ftau Fm). Notation rho := (frho Fm). Notation lo := (flo Fm). Notation hi := (fhi Fm).
  Notation tk := (tk Fm). Notation val := (fval Fm). Notation fin := (ffin Fm).
  Let Hlo : 0 <= lo := r_lo _ _ RN.

  Definition va (a : list V) (j : nat) : R := nth j (map val a) 0.
  Lemma va_nth a j : (j < length a)%nat -> va a j = val (nth j a nzero).
  Proof. intros. unfold va. rewrite (nth_indep _ 0 (val nzero)) by (now rewrite map_length). apply map_nth. Qed.
  Lemma fin_nth a j : Forall fin a -> (j < length a)%nat -> fin (nth j a nzero).
  Proof. intros Fa Hj. rewrite Forall_forall in Fa. now apply Fa, nth_In. Qed.
  Lemma fin_all a n : length a = n -> (forall j, (j < n)%nat -> fin (nth j a nzero)) -> Forall fin a.
  Proof.
    intros L H. apply Forall_forall. intros v Hv. apply (In_nth _ _ nzero) in Hv. destruct Hv as (j & Hj & <-). apply H. lia.
  Qed.

  (** magnitudes, at least [flo] *)
  Definition mx (a : list V) (j : nat) : R := Rmax (Rabs (va a j)) lo.
  Lemma mx0 a j : 0 <= mx a j.
  Proof. unfold mx. pose proof (Rabs_pos (va a j)). pose proof (Rmax_l (Rabs (va a j)) lo). lra. Qed.
  Lemma mx_sq a j : mx a j * mx a j <= va a j * va a j + lo * lo.
  Proof.
    unfold mx. pose proof (sq0 (va a j)). pose proof (sq0 lo). apply Rmax_case; [|lra].
    rewrite <- Rabs_mult, Rabs_pos_eq by apply sq0. lra.
  Qed.
  Lemma mx_tk a j : Forall fin a -> (j < length a)%nat -> tk 1 (mx a j) (nth j a nzero) (va a j).
  Proof. intros Fa Hj. unfold mx. rewrite va_nth by auto. apply tk_exact. now apply fin_nth. Qed.

  Definition sc (n : nat) (a : list V) : R := sqrt (ss n (va a) + INR n * (lo * lo)).
  Lemma Klo n : 0 <= INR n * (lo * lo).
  Proof. apply Rmult_le_pos; [apply pos_INR|apply sq0]. Qed.
  Lemma sc0 n a : 0 <= sc n a.
  Proof. apply sqrt_pos. Qed.
  Lemma sc_sq n a : sc n a * sc n a = ss n (va a) + INR n * (lo * lo).
  Proof. apply sqrt_sqrt. pose proof (ss0 n (va a)). pose proof (Klo n). lra. Qed.
  Lemma sc_sum n a : sc n a * sc n a = rsum n (fun j => va a j * va a j + lo * lo).
  Proof. rewrite sc_sq, rsum_add, rsum_const. reflexivity. Qed.
  Lemma ss_mx n a : ss n (mx a) <= sc n a * sc n a.
  Proof. rewrite sc_sum. apply rsum_le. intros. apply mx_sq. Qed.
  Lemma nrm_mx n a : nrm n (mx a) <= sc n a.
  Proof. apply ss_le_nrm; [apply sc0|apply ss_mx]. Qed.
  Lemma scale_sc a : scale Fm a = sc (length a) a.
  Proof. reflexivity. Qed.
  Lemma size_sc a : size Fm a <= sqrt (INR (length a)) * sc (length a) a.
  Proof.
    change (size Fm a) with (rsum (length a) (mx a)). apply (Rle_trans _ _ _ (sum_le _ _)).
    apply Rmult_le_compat_l; [apply sqrt_pos|apply nrm_mx].
  Qed.

  (** [f] computes the transform of length [n] with relative error r - 1 *)
  Definition rmsf (f : list V -> list V) (n : nat) (r C : R) : Prop :=
    forall a, length a = n -> Forall fin a -> C * (sqrt (INR n) * sc n a) <= hi ->
      Forall fin (f a) /\ nrm n (fun j => va (f a) j - dhtf n (va a) j) <= (r - 1) * (sqrt (INR n) * sc n a).

  Lemma rms_intro d f n r C : 1 <= r -> 1 <= C -> dht_ok d f -> dht_len d = n -> rmsf f n r C -> rms_close Fm d r C.
  Proof.
    intros Hr HC O L F. split; [|split]; auto. exists f. split; [exact (proj1 (transforms_ok _ _) O)|].
    rewrite L. intros x Lx Fx Hc. rewrite scale_sc in *. rewrite Lx in *. destruct (F x Lx Fx Hc) as [F1 F2]. split; auto.
    eapply Rle_trans; [|exact F2]. right. unfold distance, nrm, ss. f_equal.
    assert (Lf : length (f x) = n) by (rewrite <- L, (ok_len _ _ O); congruence).
    rewrite map_length, Lf. apply rsum_ext. intros j Hj.
    rewrite nth_dht_spec by (rewrite map_length; lia). rewrite dht_at_dhtf, map_length, Lx. reflexivity.
  Qed.
  Lemma rms_elim d r C : rms_close Fm d r C -> 1 <= r /\ 1 <= C /\ exists f, dht_ok d f /\ rmsf f (dht_len d) r C.
  Proof.
    intros (P & Q & f & T & E). split; [|split]; auto. exists f.
    pose proof (proj2 (transforms_ok _ _) T) as O. split; auto.
    intros a La Fa Hc. specialize (E a La Fa). rewrite scale_sc, La in E. destruct (E Hc) as [E1 E2]. split; auto.
    eapply Rle_trans; [|exact E2]. right. unfold distance, nrm, ss. f_equal.
    assert (Lf : length (f a) = dht_len d) by (now apply (ok_len _ _ O)).
    rewrite map_length, Lf. apply rsum_ext. intros j Hj.
    rewrite nth_dht_spec by (rewrite map_length; lia). rewrite dht_at_dhtf, map_length, La. reflexivity.
  Qed.
  Lemma rms_zero d f r C : 1 <= r -> 1 <= C -> dht_ok d f -> dht_len d = 0%nat -> rms_close Fm d r C.
  Proof.
    intros Hr HC O L. apply (rms_intro d f 0 r C); auto. intros a La Fa _.
    assert (length (f a) = 0%nat) by (rewrite (ok_len _ _ O); congruence). destruct (f a); [|easy]. split; auto.
    unfold nrm, ss. simpl rsum. rewrite sqrt_0. apply Rmult_le_pos; [lra|]. apply Rmult_le_pos; [apply sqrt_pos|apply sc0].
  Qed.

  (** ** from the worst case error of every output *)
  Lemma worst_rmsf f n phi G : 1 <= phi -> sqrt 2 <= G -> (forall y, length y = n -> length (f y) = n) -> tkf Fm f n phi G ->
    1 <= 1 + (phi - 1) * G * sqrt (INR n) /\ 1 <= phi * G /\ rmsf f n (1 + (phi - 1) * G * sqrt (INR n)) (phi * G).
  Proof.
    intros P Q Lf' T. pose proof sqrt2_bounds.
    pose proof (sqrt_pos (INR n)) as S.
    assert (P1 : 0 <= (phi - 1) * G) by (apply Rmult_le_pos; lra).
    assert (P2 : 0 <= (phi - 1) * G * sqrt (INR n)) by (apply Rmult_le_pos; auto).
    split; [lra|]. split; [nra|].
    intros a La Fa Hc. pose proof (size_sc a) as Sz. rewrite La in Sz.
    assert (Hc' : phi * (G * size Fm a) <= hi).
    { apply (Rle_trans _ (phi * G * (sqrt (INR n) * sc n a))); auto.
      rewrite <- Rmult_assoc. apply Rmult_le_compat_l; [nra|auto]. }
    pose proof (Lf' _ La) as Lf.
    assert (E : forall k, (k < n)%nat -> fin (nth k (f a) nzero) /\
        Rabs (va (f a) k - dhtf n (va a) k) <= (phi - 1) * G * (sqrt (INR n) * sc n a)).
    { intros k Hk. destruct (tkf_approx Fm N f n phi G a k T La Hk Fa Hc') as [E1 E2]. split; auto.
      rewrite va_nth by lia. rewrite dht_at_dhtf, map_length, La in E2. eapply Rle_trans; [exact E2|].
      rewrite <- Rmult_assoc. now apply Rmult_le_compat_l. }
    split; [apply (fin_all _ n); auto; intros; now apply E|].
    apply ss_le_nrm.
    { replace (1 + (phi - 1) * G * sqrt (INR n) - 1) with ((phi - 1) * G * sqrt (INR n)) by ring.
      apply Rmult_le_pos; auto. apply Rmult_le_pos; [auto|apply sc0]. }
    eapply Rle_trans; [apply ss_le; intros j Hj; apply E; auto|].
    unfold ss. rewrite rsum_const. set (s := sqrt (INR n)) in *.
    replace (INR n) with (s * s) by (apply sqrt_sqrt, pos_INR). right. ring.
  Qed.
  Lemma worst_rms d phi G : approximates Fm N d phi G ->
    rms_close Fm d (1 + (phi - 1) * G * sqrt (INR (dht_len d))) (phi * G).
  Proof.
    intros A. destruct (approx_elim _ _ _ _ _ A) as (P & Q & f & O & T).
    destruct (worst_rmsf f (dht_len d) phi G P Q (ok_len _ _ O) T) as (R1 & R2 & F). now apply (rms_intro d f (dht_len d)).
  Qed.

  (** ** the rows *)
  Section Grid.
    Variables (W H : nat).
    Hypothesis Wp : (0 < W)%nat.
    Hypothesis Hp : (0 < H)%nat.

    (** where cell (r, c) of the transposed, half reversed input comes from *)
    Definition src (r c : nat) : nat := ((if (r <=? W / 2)%nat then c else H - 1 - c) * W + r)%nat.
    Lemma src_lt r c : (r < W)%nat -> (c < H)%nat -> (src r c < W * H)%nat.
    Proof. intros. unfold src. destruct (r <=? W / 2)%nat; nia. Qed.
    Lemma src_sum (f : nat -> R) : grid W H (fun r c => f (src r c)) = rsum (W * H) f.
    Proof.
      rewrite rsum_stride. apply rsum_ext. intros r Hr. unfold src. destruct (r <=? W / 2)%nat; auto.
      now rewrite (rsum_rev H (fun s => f (s * W + r)%nat)).
    Qed.
    Lemma sqrtWH : sqrt (INR (W * H)) = sqrt (INR W) * sqrt (INR H).
    Proof. rewrite mult_INR. apply sqrt_mult; apply pos_INR. Qed.
    Definition rows (x : list R) : list R := map_chunks H dht_spec (@half_rev R (RNum rh) W H x).
    Lemma rows_length x : length (rows x) = (W * H)%nat.
    Proof. unfold rows. apply map_chunks_length; auto; [apply half_rev_length|]. intros. apply dht_spec_length || (rewrite dht_spec_length; auto). Qed.
    Lemma nth_rows x r c : (r < W)%nat -> (c < H)%nat ->
      nth (r * H + c) (rows x) 0 = dhtf H (fun s => nth (src r s) x 0) c.
    Proof.
      intros Hr Hc. unfold rows. rewrite (nth_map_chunks H W); auto; [|apply half_rev_length|intros y Hy; now rewrite dht_spec_length].
      unfold half_rev. rewrite slice_tab by auto. rewrite nth_dht_spec by (now rewrite map_length, seq_length).
      rewrite dht_at_dhtf, map_length, seq_length. apply dhtf_ext. intros s Hs. now rewrite nth_map_seq.
    Qed.
    Lemma ss_rows x : ss (W * H) (fun j => nth j (rows x) 0) = INR H * ss (W * H) (fun j => nth j x 0).
    Proof.
      rewrite ss_grid. rewrite (grid_ext W H _ (fun r c => dhtf H (fun s => nth (src r s) x 0) c * dhtf H (fun s => nth (src r s) x 0) c))
        by (intros; now rewrite !nth_rows).
      unfold grid. rewrite (rsum_ext W _ (fun r => INR H * rsum H (fun c => nth (src r c) x 0 * nth (src r c) x 0))).
      2:{ intros r Hr. exact (parseval H (fun s => nth (src r s) x 0)). }
      rewrite rsum_scal. f_equal. apply (src_sum (fun j => nth j x 0 * nth j x 0)).
    Qed.
    (** every grid is the rows of something *)
    Lemma rows_onto (Z : list R) : length Z = (W * H)%nat -> exists x, length x = (W * H)%nat /\ rows x = Z.
    Proof.
      intros LZ.
      pose (x := map (fun j => let r := (j mod W)%nat in let s := (j / W)%nat in
         / INR H * dhtf H (fun c => nth (r * H + c) Z 0) (if (r <=? W / 2)%nat then s else H - 1 - s)%nat) (seq 0 (W * H))).
      assert (Lx : length x = (W * H)%nat) by (unfold x; now rewrite map_length, seq_length).
      exists x. split; auto. apply (nth_ext _ _ 0 0); [now rewrite rows_length|]. intros j Hj. rewrite rows_length in Hj.
      destruct (rc_split W H j Hj) as (r & c & Hr & Hc & ->). rewrite nth_rows by auto.
      rewrite (dhtf_ext H _ (fun s => / INR H * dhtf H (fun c => nth (r * H + c) Z 0) s + 0 * 0)).
      - rewrite (dhtf_lin H (/ INR H) 0 (dhtf H (fun c => nth (r * H + c) Z 0)) (fun _ => 0)), dhtf_twice by auto.
        pose proof (INR1 H Hp). field. lra.
      - intros s Hs. unfold x. rewrite nth_map_seq by (now apply src_lt). rewrite Nat.add_0_l. cbv zeta. unfold src.
        rewrite (Nat.add_comm _ r), Nat.mod_add, Nat.div_add, (Nat.mod_small r), (Nat.div_small r) by lia. rewrite Nat.add_0_l.
        rewrite Rmult_0_l, Rplus_0_r. destruct (r <=? W / 2)%nat; auto. do 2 f_equal. lia.
    Qed.

    (** the exact column stage multiplies distances by sqrt W *)
    Section Iso.
      Variable RC : list R -> list R.
      Hypothesis EX : forall x, length x = (W * H)%nat -> RC (rows x) = dht_spec x.
      Let inr_neq : INR H <> 0. Proof. pose proof (INR1 H Hp). lra. Qed.
      Lemma cols_iso Z Z' : length Z = (W * H)%nat -> length Z' = (W * H)%nat ->
        ss (W * H) (fun j => nth j (RC Z) 0 - nth j (RC Z') 0) = INR W * ss (W * H) (fun j => nth j Z 0 - nth j Z' 0).
      Proof.
        intros L L'. destruct (rows_onto Z L) as (x & Lx & <-), (rows_onto Z' L') as (x' & Lx' & <-).
        rewrite !EX by auto.
        pose (y := map (fun j => nth j x 0 - nth j x' 0) (seq 0 (W * H))).
        assert (Ly : length y = (W * H)%nat) by (unfold y; now rewrite map_length, seq_length).
        assert (Ey : forall j, (j < W * H)%nat -> nth j y 0 = nth j x 0 - nth j x' 0) by (intros; unfold y; now rewrite nth_map_seq).
        transitivity (ss (W * H) (dhtf (W * H) (fun j => nth j y 0))).
        - apply ss_ext. intros j Hj. rewrite !nth_dht_spec by lia. rewrite !dht_at_dhtf, Lx, Lx', <- dhtf_sub.
          apply dhtf_ext. intros. now rewrite Ey.
        - rewrite ss_dhtf, mult_INR, Rmult_assoc. f_equal. rewrite <- ss_rows. apply ss_ext. intros j Hj.
          destruct (rc_split W H j Hj) as (r & c & Hr & Hc & ->). rewrite !nth_rows, <- dhtf_sub by auto.
          apply dhtf_ext. intros s Hs. apply Ey. now apply src_lt.
      Qed.
      Lemma cols_norm Z : length Z = (W * H)%nat ->
        ss (W * H) (fun j => nth j (RC Z) 0) = INR W * ss (W * H) (fun j => nth j Z 0).
      Proof.
        intros L. destruct (rows_onto Z L) as (x & Lx & <-). rewrite EX by auto.
        rewrite (ss_ext _ _ (dhtf (W * H) (fun j => nth j x 0))).
        - rewrite ss_dhtf, mult_INR, Rmult_assoc. f_equal. now rewrite ss_rows.
        - intros j Hj. rewrite nth_dht_spec by lia. now rewrite dht_at_dhtf, Lx.
      Qed.
    End Iso.

    Variables (fh : list V -> list V) (r C : R).
    Hypothesis r1 : 1 <= r.
    Hypothesis C1 : 0 <= C.
    Hypothesis fh_len : forall y, length y = H -> length (fh y) = H.
    Hypothesis Fh : rmsf fh H r C.

    Section Input.
      Variable a : list V.
      Hypothesis La : length a = (W * H)%nat.
      Hypothesis Fa : Forall fin a.
      Hypothesis Hc : C * (sqrt (INR (W * H)) * sc (W * H) a) <= hi.
      Let x := map val a.
      Let Lx : length x = (W * H)%nat. Proof. unfold x. now rewrite map_length. Qed.
      Let Y := map_chunks H fh (@half_rev V N W H a).
      Let row (i : nat) : list V := map (fun c => nth (src i c) a nzero) (seq 0 H).
      Let row_len i : length (row i) = H. Proof. unfold row. now rewrite map_length, seq_length. Qed.
      Let row_va i s : (i < W)%nat -> (s < H)%nat -> va (row i) s = va a (src i s).
      Proof.
        intros Hi Hs. rewrite !va_nth by (rewrite ?row_len, ?La; auto using src_lt). unfold row. now rewrite nth_map_seq.
      Qed.
      Let row_fin i : (i < W)%nat -> Forall fin (row i).
      Proof.
        intros Hi. apply (fin_all _ H); auto. intros j Hj. unfold row. rewrite nth_map_seq by auto. apply fin_nth; auto.
        rewrite La. now apply src_lt.
      Qed.
      Let row_sc : rsum W (fun i => sc H (row i) * sc H (row i)) = sc (W * H) a * sc (W * H) a.
      Proof.
        rewrite sc_sum, <- src_sum. apply rsum_ext. intros i Hi. rewrite sc_sum. apply rsum_ext. intros s Hs. now rewrite row_va.
      Qed.
      Let row_le i : (i < W)%nat -> sc H (row i) <= sc (W * H) a.
      Proof.
        intros Hi. apply sq_le_inv; [apply sc0|]. rewrite <- row_sc. apply (entry_le W (fun i => sc H (row i)) i Hi).
      Qed.
      Lemma Y_length : length Y = (W * H)%nat.
      Proof. unfold Y. apply map_chunks_length; auto. apply half_rev_length. Qed.
      Let nthY i c : (i < W)%nat -> (c < H)%nat -> nth (i * H + c) Y nzero = nth c (fh (row i)) nzero.
      Proof.
        intros Hi Hc'. unfold Y. rewrite (nth_map_chunks H W); auto; [|apply half_rev_length].
        unfold half_rev. now rewrite slice_tab by auto.
      Qed.
      Let inner i : (i < W)%nat -> Forall fin (fh (row i)) /\
        nrm H (fun j => va (fh (row i)) j - dhtf H (va (row i)) j) <= (r - 1) * (sqrt (INR H) * sc H (row i)).
      Proof.
        intros Hi. apply Fh; auto. eapply Rle_trans; [|exact Hc]. apply Rmult_le_compat_l; auto. rewrite sqrtWH.
        pose proof (sqrt1 W Wp). pose proof (sqrt1 H Hp). pose proof (row_le i Hi). pose proof (sc0 H (row i)).
        apply (Rle_trans _ (sqrt (INR H) * sc (W * H) a)); [apply Rmult_le_compat_l; lra|].
        apply Rmult_le_compat_r; [apply sc0|]. nra.
      Qed.
      Lemma rows_fin : Forall fin Y.
      Proof.
        apply (fin_all _ (W * H)); [apply Y_length|]. intros j Hj. destruct (rc_split W H j Hj) as (i & c & Hi & Hc' & ->).
        rewrite nthY by auto. apply fin_nth; [now apply inner|]. now rewrite fh_len.
      Qed.
      Lemma rows_err : nrm (W * H) (fun j => va Y j - nth j (rows x) 0) <= (r - 1) * (sqrt (INR H) * sc (W * H) a).
      Proof.
        pose proof (sc0 (W * H) a). pose proof (sqrt_pos (INR H)).
        apply ss_le_nrm; [apply Rmult_le_pos; [lra|now apply Rmult_le_pos]|].
        rewrite ss_grid. apply (Rle_trans _ (rsum W (fun i => (r - 1) * (r - 1) * INR H * (sc H (row i) * sc H (row i))))).
        - apply rsum_le. intros i Hi. destruct (inner i Hi) as [_ E].
          rewrite (rsum_ext H _ (fun j => (va (fh (row i)) j - dhtf H (va (row i)) j) * (va (fh (row i)) j - dhtf H (va (row i)) j))).
          + change (ss H (fun j => va (fh (row i)) j - dhtf H (va (row i)) j) <= (r - 1) * (r - 1) * INR H * (sc H (row i) * sc H (row i))).
            rewrite <- nrm_sq.
            replace ((r - 1) * (r - 1) * INR H * (sc H (row i) * sc H (row i))) with ((r - 1) * (sqrt (INR H) * sc H (row i)) * ((r - 1) * (sqrt (INR H) * sc H (row i)))).
            * pose proof (nrm0 H (fun j => va (fh (row i)) j - dhtf H (va (row i)) j)). apply Rmult_le_compat; auto.
            * rewrite <- (sqrt_sqrt (INR H)) at 3 by apply pos_INR. ring.
          + intros c Hc'. rewrite (va_nth Y) by (rewrite Y_length; nia). rewrite nthY by auto.
            rewrite <- va_nth by (now rewrite fh_len). rewrite nth_rows by auto.
            rewrite (dhtf_ext H (fun s => nth (src i s) x 0) (va (row i))) by (intros; now rewrite row_va). reflexivity.
        - rewrite rsum_scal, row_sc. right. rewrite <- (sqrt_sqrt (INR H)) at 1 by apply pos_INR. ring.
      Qed.
      Lemma rows_sc : sc (W * H) Y <= r * (sqrt (INR H) * sc (W * H) a).
      Proof.
        unfold sc at 1.
        rewrite (ss_ext _ (va Y) (fun j => nth j (rows x) 0 + (va Y j - nth j (rows x) 0))) by (intros; ring).
        eapply Rle_trans; [apply triangle_plus, Klo|].
        assert (E : sqrt (ss (W * H) (fun j => nth j (rows x) 0) + INR (W * H) * (lo * lo)) <= sqrt (INR H) * sc (W * H) a).
        { apply sqrt_le_of; [apply Rmult_le_pos; [apply sqrt_pos|apply sc0]|].
          replace (sqrt (INR H) * sc (W * H) a * (sqrt (INR H) * sc (W * H) a)) with (sqrt (INR H) * sqrt (INR H) * (sc (W * H) a * sc (W * H) a)) by ring.
          rewrite sqrt_sqrt, sc_sq by apply pos_INR. rewrite ss_rows. change (fun j => nth j x 0) with (va a).
          pose proof (Klo (W * H)). pose proof (INR1 H Hp). nra. }
        pose proof rows_err. lra.
      Qed.
    End Input.

    (** ** rows, then a column stage of relative error [delta] *)
    Definition local (FC : list V -> list V) (RC : list R -> list R) (delta Cl : R) : Prop :=
      forall Y, length Y = (W * H)%nat -> Forall fin Y -> Cl * (sqrt (INR W) * sc (W * H) Y) <= hi ->
        length (FC Y) = (W * H)%nat /\ Forall fin (FC Y) /\
        nrm (W * H) (fun j => va (FC Y) j - nth j (RC (map val Y)) 0) <= delta * (sqrt (INR W) * sc (W * H) Y).

    Lemma rows_cols_rms FC RC delta Cl : 0 <= delta -> 0 <= Cl ->
      (forall x, length x = (W * H)%nat -> RC (rows x) = dht_spec x) -> local FC RC delta Cl ->
      rmsf (fun a => FC (map_chunks H fh (@half_rev V N W H a))) (W * H) (r * (1 + delta)) (Rmax C (Cl * r)).
    Proof.
      intros D0 Cl0 EX LOC a La Fa Hc.
      assert (P0 : 0 <= sqrt (INR (W * H)) * sc (W * H) a) by (apply Rmult_le_pos; [apply sqrt_pos|apply sc0]).
      assert (HC1 : C * (sqrt (INR (W * H)) * sc (W * H) a) <= hi).
      { eapply Rle_trans; [|exact Hc]. apply Rmult_le_compat_r; auto. apply Rmax_l. }
      assert (HC2 : Cl * r * (sqrt (INR (W * H)) * sc (W * H) a) <= hi).
      { eapply Rle_trans; [|exact Hc]. apply Rmult_le_compat_r; auto. apply Rmax_r. }
      pose proof (rows_fin a La Fa HC1) as FY. pose proof (rows_err a La Fa HC1) as EY. pose proof (rows_sc a La Fa HC1) as SY.
      pose proof (Y_length a) as LY. set (Y := map_chunks H fh (half_rev W H a)) in *.
      pose proof (sqrt_pos (INR W)) as sW. pose proof (sqrt_pos (INR H)) as sH. pose proof (sc0 (W * H) a) as s0. rewrite sqrtWH in *.
      destruct (LOC Y LY FY) as (L1 & F1 & E1).
      { eapply Rle_trans; [|exact HC2]. rewrite Rmult_assoc. apply Rmult_le_compat_l; auto.
        apply (Rle_trans _ (sqrt (INR W) * (r * (sqrt (INR H) * sc (W * H) a)))); [now apply Rmult_le_compat_l|]. right. ring. }
      split; auto.
      rewrite (nrm_ext _ _ (fun j => (va (FC Y) j - nth j (RC (map val Y)) 0) + (nth j (RC (map val Y)) 0 - nth j (RC (rows (map val a))) 0))).
      2:{ intros j Hj. rewrite EX by (now rewrite map_length). rewrite nth_dht_spec by (rewrite map_length; lia).
          rewrite dht_at_dhtf, map_length, La. fold (va a). unfold va. ring. }
      eapply Rle_trans; [apply minkowski|].
      assert (E2 : nrm (W * H) (fun j => nth j (RC (map val Y)) 0 - nth j (RC (rows (map val a))) 0) = sqrt (INR W) * nrm (W * H) (fun j => va Y j - nth j (rows (map val a)) 0)).
      { unfold nrm. rewrite (cols_iso RC EX) by (try apply rows_length; now rewrite map_length). apply sqrt_mult; [apply pos_INR|apply ss0]. }
      rewrite E2.
      assert (E3 : sqrt (INR W) * nrm (W * H) (fun j => va Y j - nth j (rows (map val a)) 0) <= sqrt (INR W) * ((r - 1) * (sqrt (INR H) * sc (W * H) a))) by (now apply Rmult_le_compat_l).
      assert (E4 : delta * (sqrt (INR W) * sc (W * H) Y) <= delta * (sqrt (INR W) * (r * (sqrt (INR H) * sc (W * H) a)))).
      { apply Rmult_le_compat_l; auto. apply Rmult_le_compat_l; auto. }
      apply (Rle_trans _ (delta * (sqrt (INR W) * (r * (sqrt (INR H) * sc (W * H) a))) + sqrt (INR W) * ((r - 1) * (sqrt (INR H) * sc (W * H) a)))); [lra|].
      right. ring.
    Qed.
  End Grid.
End Rms.
