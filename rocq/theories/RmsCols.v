(** * Root-mean-square errors of the column stages *)
From Verif Require Import Lemmas Contract ButterfliesProof NxnProof NxnInst MixedRadixProof MixedContract RealDHT DHTTheory MixedReal
  ButterfliesReal NxnReal FloatTree FloatButterflies FloatMixed.
From Verif Require Export RmsProof.
From Coq Require Import Reals Lra Lia List Arith Psatz.
Import ListNotations.
Local Open Scope R_scope.

Section Cols.
  Context {V : Type} (Fm : fmt V) (N : Num V) (RN : rounded Fm N).
  Notation u := (fu Fm). Notation tau := (ftau Fm). Notation rho := (frho Fm). Notation lo := (flo Fm). Notation hi := (fhi Fm).
  Notation tk := (tk Fm). Notation val := (fval Fm). Notation fin := (ffin Fm). Notation fac := (fac u tau).
  Notation va := (va Fm). Notation mx := (mx Fm). Notation sc := (sc Fm). Notation tkl := (tkl Fm N).
  Let Hu : 0 <= u := r_u _ _ RN.
  Let Ht : 0 <= tau := r_tau _ _ RN.
  Let Hr : 0 <= rho := r_rho _ _ RN.
  Variables (W H : nat).
  Hypothesis Wp : (0 < W)%nat.
  Hypothesis Hp : (0 < H)%nat.

  Section Buffer.
    Variable Y : list V.
    Hypothesis LY : length Y = (W * H)%nat.
    Hypothesis FY : Forall fin Y.
    Definition mrc (r c : nat) : R := mx Y (r * H + c).
    Lemma mrc0 r c : 0 <= mrc r c. Proof. apply (mx0 Fm). Qed.
    Lemma mrc_grid : grid W H (fun r c => mrc r c * mrc r c) <= sc (W * H) Y * sc (W * H) Y.
    Proof. unfold mrc. rewrite <- (ss_grid W H (mx Y)). apply (ss_mx Fm). Qed.
    Lemma mrc_le r c : (r < W)%nat -> (c < H)%nat -> mrc r c <= sc (W * H) Y.
    Proof.
      intros. apply sq_le_inv; [apply sc0|]. apply (Rle_trans _ (ss (W * H) (mx Y))); [|apply (ss_mx Fm)].
      unfold mrc. apply (entry_le (W * H) (mx Y)). nia.
    Qed.
    Lemma mrc_col c : (c < H)%nat -> rsum W (fun r => mrc r c) <= sqrt (INR W) * sc (W * H) Y.
    Proof.
      intros Hc. apply (Rle_trans _ _ _ (sum_le _ _)). apply Rmult_le_compat_l; [apply sqrt_pos|].
      apply ss_le_nrm; [apply sc0|]. eapply Rle_trans; [|apply mrc_grid]. rewrite grid_swap.
      pose (g c := nrm W (fun r => mrc r c)).
      rewrite (rsum_ext H _ (fun c => g c * g c)) by (intros; unfold g; now rewrite nrm_sq).
      change (ss W (fun r => mrc r c) <= ss H g). rewrite <- nrm_sq. exact (entry_le H g c Hc).
    Qed.
    Lemma col_exact c m : (c < H)%nat -> (forall r, (r < W)%nat -> mrc r c <= m r) ->
      tkl 1 m W (@col V N W H Y c) (@col R (RNum rh) W H (map val Y) c).
    Proof.
      intros Hc Hm. split; [apply col_length|]. split; [apply col_length|]. intros r Hr'. rewrite !nth_col by auto. cbn [nzero RNum].
      apply (tk_mono Fm 1 1 (mrc r c)); try lra; auto. apply (mx_tk Fm); auto. rewrite LY. nia.
    Qed.
  End Buffer.

  (** ** kernels that mix whole columns *)
  Section Small.
    Context {A B : Type} (bfp : list V -> list V) (bfx : list R -> list R) (pairp : A -> list V -> list V -> list V * list V)
      (pairx : B -> list R -> list R -> list R * list R) (twa : nat -> A) (twx : nat -> B) (phi : R).
    Hypothesis phi1 : 1 <= phi.
    Hypothesis bf_tk : forall m f f', tkl 1 m W f f' -> forall q, (q < W)%nat -> tk phi (2 * rsum W m) (nth q (bfp f) nzero) (nth q (bfx f') 0).
    Hypothesis pair_tk : forall m c f f' v v', (c < H)%nat -> tkl 1 m W f f' -> tkl 1 m W v v' ->
      forall q, (q < W)%nat -> tk phi (2 * rsum W m) (nth q (fst (pairp (twa c) f v)) nzero) (nth q (fst (pairx (twx c) f' v')) 0) /\
                              tk phi (2 * rsum W m) (nth q (snd (pairp (twa c) f v)) nzero) (nth q (snd (pairx (twx c) f' v')) 0).
    Lemma small_local : local Fm W H (@cols_fun V N A W H bfp pairp twa) (@cols_fun R (RNum rh) B W H bfx pairx twx)
      (4 * sqrt (INR W) * (phi - 1)) (4 * phi).
    Proof.
      intros Y LY FY Hc.
      set (m c r := mrc Y r c + mrc Y r (mir H c)).
      assert (Lc : length (@cols_fun V N A W H bfp pairp twa Y) = (W * H)%nat) by apply cols_fun_length.
      assert (T : forall q c, (q < W)%nat -> (c < H)%nat -> tk phi (2 * rsum W (m c))
         (nth (q * H + c) (@cols_fun V N A W H bfp pairp twa Y) nzero) (nth (q * H + c) (@cols_fun R (RNum rh) B W H bfx pairx twx (map val Y)) 0)).
      { intros q c Hq Hc'. unfold cols_fun. rewrite !nth_tab by auto. unfold cols_cell. cbn [nzero RNum].
        assert (M1 : forall r, (r < W)%nat -> mrc Y r c <= m c r) by (intros; unfold m; pose proof (mrc0 Y r (mir H c)); lra).
        assert (M2 : forall r, (r < W)%nat -> mrc Y r (mir H c) <= m c r) by (intros; unfold m; pose proof (mrc0 Y r c); lra).
        destruct (Nat.eqb_spec c 0) as [->|Nc]; [apply bf_tk; auto; now apply col_exact|].
        assert (Em : mir H c = (H - c)%nat) by (unfold mir; destruct (Nat.eqb_spec c 0); lia). rewrite Em in M2.
        destruct (Nat.ltb_spec (2 * c) H); apply pair_tk; auto; try lia; apply col_exact; auto; lia. }
      assert (Sm : forall c, (c < H)%nat -> rsum W (m c) <= 2 * (sqrt (INR W) * sc (W * H) Y)).
      { intros c Hc'. unfold m. rewrite rsum_add. pose proof (mrc_col Y c Hc').
        pose proof (mrc_col Y (mir H c) (mir_lt _ _ Hc')). lra. }
      assert (K : forall q c, (q < W)%nat -> (c < H)%nat -> ak Fm phi (2 * rsum W (m c))
         (nth (q * H + c) (@cols_fun V N A W H bfp pairp twa Y) nzero) (nth (q * H + c) (@cols_fun R (RNum rh) B W H bfx pairx twx (map val Y)) 0)).
      { intros q c Hq Hc'. apply T; auto. eapply Rle_trans; [|exact Hc]. rewrite (Rmult_comm 4 phi), Rmult_assoc.
        apply Rmult_le_compat_l; [lra|]. specialize (Sm c Hc'). lra. }
      split; auto. split.
      { apply (fin_all Fm N _ (W * H)); auto. intros j Hj. destruct (rc_split W H j Hj) as (q & c & Hq & Hc' & ->). apply K; auto. }
      pose proof (sqrt_pos (INR W)) as sW. pose proof (sc0 Fm (W * H) Y) as s0.
      assert (D0 : 0 <= 4 * sqrt (INR W) * (phi - 1)) by (apply Rmult_le_pos; lra).
      apply ss_le_nrm; [apply Rmult_le_pos; [auto|now apply Rmult_le_pos]|].
      rewrite ss_grid. eapply Rle_trans.
      { apply (grid_cols W H (2 * (phi - 1)) _ (mrc Y)). intros q c Hq Hc'. rewrite (va_nth Fm N) by (rewrite Lc; nia).
        destruct (K q c Hq Hc') as (_ & E & _). fold (m c). lra. }
      eapply Rle_trans; [apply Rmult_le_compat_l; [apply sq0|apply mrc_grid]|].
      pose proof (sqrt_sqrt (INR W) (pos_INR W)) as E. set (s := sqrt (INR W)) in *. rewrite <- E. right. ring.
    Qed.
  End Small.

  (** ** MixedRadix: twiddles, then a transform of every column *)
  Section Mixed.
    Hypothesis Us : usz (W * H * 8).
    Variables (fw : list V -> list V) (rw Cw : R).
    Hypothesis rw1 : 1 <= rw.
    Hypothesis Cw1 : 0 <= Cw.
    Hypothesis fw_len : forall y, length y = W -> length (fw y) = W.
    Hypothesis Fw : rmsf Fm fw W rw Cw.
    Let phi := (1 + rho) * fac 4 1.
    Let phi1 : 1 <= phi.
    Proof. unfold phi. pose proof (fac_1 Fm N RN 4 1). nra. Qed.

    Let twisted (Y : list V) : list V := tab W H (@mixed_val V N W H Y).
    Let twistx (y : list R) : list R := tab W H (@mixed_val R (RNum rh) W H y).
    (** the transforms of all columns, those in the second half reversed *)
    Let pos (c q : nat) : nat := if (c =? 0)%nat then q else if (2 * c <? H)%nat then q else (W - 1 - q)%nat.
    Let pos_lt c q : (q < W)%nat -> (pos c q < W)%nat.
    Proof. unfold pos. destruct (c =? 0)%nat, (2 * c <? H)%nat; lia. Qed.
    Let pos_sum c (f : nat -> R) : rsum W (fun q => f (pos c q)) = rsum W f.
    Proof. unfold pos. destruct (c =? 0)%nat, (2 * c <? H)%nat; auto; now rewrite (rsum_rev W f). Qed.
    Let FC := @cols_fun V N (nat -> cplx V) W H fw (@mixed_pairp V N W fw) (fun c r => @tw8 V N W H r c).
    Let RC := @cols_fun R (RNum rh) (nat -> cplx R) W H dht_spec (@mixed_pairp R (RNum rh) W dht_spec) (fun c r => @tw8 R (RNum rh) W H r c).

    Let FC_cell Y q c : (q < W)%nat -> (c < H)%nat ->
      nth (q * H + c) (FC Y) nzero = nth (pos c q) (fw (@col V N W H (twisted Y) c)) nzero.
    Proof.
      intros Hq Hc. unfold FC, cols_fun. rewrite nth_tab by auto. unfold cols_cell, pos.
      assert (E : @col V N W H (twisted Y) c = map (fun r => @mixed_val V N W H Y r c) (seq 0 W)).
      { unfold col, twisted. apply map_ext_in. intros r Hr'. apply in_seq in Hr'. rewrite nth_tab by (auto; lia). reflexivity. }
      rewrite E. unfold mixed_val.
      destruct (Nat.eqb_spec c 0) as [->|Nc]; [reflexivity|].
      destruct (Nat.ltb_spec (2 * c) H); [reflexivity|]. unfold mixed_pairp. cbn [snd].
      rewrite nth_rev' by (rewrite fw_len; rewrite ?map_length, ?seq_length; auto).
      rewrite fw_len by (now rewrite map_length, seq_length). reflexivity.
    Qed.
    Let RC_cell y q c : (q < W)%nat -> (c < H)%nat ->
      nth (q * H + c) (RC y) 0 = dhtf W (fun r => nth (r * H + c) (twistx y) 0) (pos c q).
    Proof.
      intros Hq Hc. unfold RC, cols_fun. rewrite nth_tab by auto. unfold cols_cell. cbn [nzero RNum].
      assert (E : forall p, dhtf W (fun r => nth (r * H + c) (twistx y) 0) p = dht_at (map (fun r => @mixed_val R (RNum rh) W H y r c) (seq 0 W)) p).
      { intros p. rewrite dht_at_dhtf, map_length, seq_length. apply dhtf_ext. intros r Hr'.
        unfold twistx. rewrite nth_tab, nth_map_seq by auto. reflexivity. }
      rewrite E. pose proof (pos_lt c q Hq) as PL. unfold pos in *. unfold mixed_val.
      destruct (Nat.eqb_spec c 0) as [->|Nc]; [rewrite nth_dht_spec by (now rewrite col_length); reflexivity|].
      destruct (Nat.ltb_spec (2 * c) H).
      { unfold mixed_pairp. cbn [fst]. rewrite nth_dht_spec by (now rewrite map_length, seq_length). reflexivity. }
      unfold mixed_pairp. cbn [snd].
      rewrite nth_rev' by (rewrite dht_spec_length, map_length, seq_length; auto).
      rewrite dht_spec_length, map_length, seq_length. rewrite nth_dht_spec by (now rewrite map_length, seq_length). reflexivity.
    Qed.

    Hypothesis EX : forall x, length x = (W * H)%nat -> RC (rows W H x) = dht_spec x.
    Let twist_norm y : length y = (W * H)%nat -> ss (W * H) (fun j => nth j (twistx y) 0) = ss (W * H) (fun j => nth j y 0).
    Proof.
      intros L. pose proof (cols_norm W H Wp Hp RC EX y L) as E. pose proof (INR1 W Wp).
      apply (Rmult_eq_reg_l (INR W)); [|lra]. rewrite <- E. rewrite !ss_grid, !grid_swap, <- rsum_scal. apply rsum_ext. intros c Hc.
      pose (t p := dhtf W (fun r => nth (r * H + c) (twistx y) 0) p * dhtf W (fun r => nth (r * H + c) (twistx y) 0) p).
      transitivity (rsum W (fun q => t (pos c q))).
      - rewrite (pos_sum c t). symmetry. exact (parseval W (fun r => nth (r * H + c) (twistx y) 0)).
      - apply rsum_ext. intros q Hq. now rewrite RC_cell.
    Qed.

    Lemma mixed_local : local Fm W H FC RC ((1 + 8 * (phi - 1)) * rw - 1) (Rmax 8 Cw * (1 + 8 * (phi - 1))).
    Proof.
      intros Y LY FY Hc.
      pose proof (sqrt1 W Wp) as sW. pose proof (sc0 Fm (W * H) Y) as s0.
      set (delta := 8 * (phi - 1)) in *. assert (D0 : 0 <= delta) by (unfold delta; lra).
      assert (WS : sc (W * H) Y <= sqrt (INR W) * sc (W * H) Y) by nra.
      assert (C8 : 8 * (1 + delta) * (sqrt (INR W) * sc (W * H) Y) <= hi).
      { eapply Rle_trans; [|exact Hc]. apply Rmult_le_compat_r; [lra|]. apply Rmult_le_compat_r; [lra|apply Rmax_l]. }
      assert (CW : Cw * (1 + delta) * (sqrt (INR W) * sc (W * H) Y) <= hi).
      { eapply Rle_trans; [|exact Hc]. apply Rmult_le_compat_r; [lra|]. apply Rmult_le_compat_r; [lra|apply Rmax_r]. }
      set (Z := twisted Y) in *. set (z := twistx (map val Y)) in *.
      assert (LZ : length Z = (W * H)%nat) by apply tab_length.
      assert (Lz : length z = (W * H)%nat) by apply tab_length.
      (* the twiddles *)
      pose (b r c := mrc Y r c + mrc Y r (mir H c) + mrc Y (mir W r) c + mrc Y (mir W r) (mir H c)).
      assert (TZ : forall r c, (r < W)%nat -> (c < H)%nat -> tk phi (2 * b r c) (nth (r * H + c) Z nzero) (nth (r * H + c) z 0)).
      { intros r c Hr' Hc'. unfold Z, z, twisted, twistx. rewrite !nth_tab by auto. unfold mixed_val. cbn [nzero RNum].
        pose proof (mrc0 Y r c). pose proof (mrc0 Y r (mir H c)). pose proof (mrc0 Y (mir W r) c). pose proof (mrc0 Y (mir W r) (mir H c)).
        destruct (Nat.eqb_spec c 0) as [->|Nc].
        { apply (tk_mono Fm 1 phi (mrc Y r 0)); try lra; [unfold b; lra|]. apply (mx_tk Fm); auto. rewrite LY. nia. }
        assert (Em : mir H c = (H - c)%nat) by (unfold mir; destruct (Nat.eqb_spec c 0); lia).
        pose (m i := mrc Y i c + mrc Y i (mir H c)).
        assert (C1 : tkl 1 m W (@col V N W H Y c) (@col R (RNum rh) W H (map val Y) c)).
        { apply col_exact; auto. intros i Hi. unfold m. pose proof (mrc0 Y i (mir H c)). lra. }
        assert (C2 : tkl 1 m W (@col V N W H Y (H - c)) (@col R (RNum rh) W H (map val Y) (H - c))).
        { apply col_exact; auto; try lia. intros i Hi. unfold m. rewrite Em. pose proof (mrc0 Y i c). lra. }
        set (pt := (1 + tau) * (1 + rho) * (1 + u)).
        assert (pt1 : 1 <= pt) by (unfold pt; assert (1 <= (1 + tau) * (1 + rho)) by nra; nra).
        assert (Ep : 1 * pt * ((1 + u) * (1 + u) * (1 + u)) = phi) by (unfold pt, phi, fac; simpl; ring).
        assert (LE : (if (r =? 0)%nat then m 0%nat else 2 * (m r + m (W - r)%nat)) <= 2 * b r c).
        { unfold b, mir in *. destruct (Nat.eqb_spec r 0) as [->|]; unfold m; lra. }
        destruct (Nat.ltb_spec (2 * c) H).
        - pose proof (mixed_cell_tk Fm N RN W 1 m _ _ pt _ _ _ _ (Rle_refl 1) pt1 (fun i Hi => tw8_ck Fm N RN W H i c Wp Hp Hi Hc' Us) C1 C2 r Hr') as [M1 _].
          rewrite Ep in M1. eapply tk_mono; [| |exact LE|exact M1]; lra.
        - pose proof (mixed_cell_tk Fm N RN W 1 m _ _ pt _ _ _ _ (Rle_refl 1) pt1 (fun i Hi => tw8_ck Fm N RN W H i (H - c) Wp Hp Hi ltac:(lia) Us) C2 C1 r Hr') as [_ M2].
          rewrite Ep in M2. eapply tk_mono; [| |exact LE|exact M2]; lra. }
      assert (B8 : forall r c, (r < W)%nat -> (c < H)%nat -> b r c <= 4 * sc (W * H) Y).
      { intros r c Hr' Hc'. unfold b. pose proof (mir_lt _ _ Hr'). pose proof (mir_lt _ _ Hc').
        pose proof (mrc_le Y LY r c Hr' Hc'). pose proof (mrc_le Y LY r (mir H c) Hr' ltac:(auto)).
        pose proof (mrc_le Y LY (mir W r) c ltac:(auto) Hc'). pose proof (mrc_le Y LY (mir W r) (mir H c) ltac:(auto) ltac:(auto)). lra. }
      assert (AZ : forall r c, (r < W)%nat -> (c < H)%nat -> ak Fm phi (2 * b r c) (nth (r * H + c) Z nzero) (nth (r * H + c) z 0)).
      { intros r c Hr' Hc'. apply TZ; auto. eapply Rle_trans; [|exact C8]. specialize (B8 r c Hr' Hc').
        apply (Rle_trans _ (phi * (8 * sc (W * H) Y))); [apply Rmult_le_compat_l; lra|].
        replace (8 * (1 + delta) * (sqrt (INR W) * sc (W * H) Y)) with ((1 + delta) * (8 * (sqrt (INR W) * sc (W * H) Y))) by ring.
        apply Rmult_le_compat; try lra; unfold delta; lra. }
      assert (FZ : Forall fin Z).
      { apply (fin_all Fm N _ (W * H)); auto. intros j Hj. destruct (rc_split W H j Hj) as (r & c & Hr' & Hc' & ->). apply AZ; auto. }
      assert (EZ : nrm (W * H) (fun j => va Z j - nth j z 0) <= delta * sc (W * H) Y).
      { apply ss_le_nrm; [now apply Rmult_le_pos|]. rewrite ss_grid. eapply Rle_trans.
        { apply (grid_four W H (2 * (phi - 1)) _ (mrc Y)). intros r c Hr' Hc'. rewrite (va_nth Fm N) by (rewrite LZ; nia).
          destruct (AZ r c Hr' Hc') as (_ & E & _). fold (b r c). lra. }
        eapply Rle_trans; [apply Rmult_le_compat_l; [apply sq0|apply mrc_grid]|]. unfold delta. right. ring. }
      assert (SZ : sc (W * H) Z <= (1 + delta) * sc (W * H) Y).
      { unfold RmsProof.sc at 1. rewrite (ss_ext _ (va Z) (fun j => nth j z 0 + (va Z j - nth j z 0))) by (intros; ring).
        eapply Rle_trans; [apply triangle_plus, (Klo Fm)|]. unfold z at 1. rewrite twist_norm by (now rewrite map_length).
        change (sqrt (ss (W * H) (fun j => nth j (map val Y) 0) + INR (W * H) * (lo * lo))) with (sc (W * H) Y). lra. }
      (* the transforms of the columns *)
      pose (cz c := @col V N W H Z c).
      assert (Lcz : forall c, length (cz c) = W) by (intros; apply col_length).
      assert (vcz : forall c r, (r < W)%nat -> (c < H)%nat -> va (cz c) r = va Z (r * H + c)).
      { intros c r Hr' Hc'. rewrite !(va_nth Fm N) by (rewrite ?Lcz, ?LZ; nia). unfold cz. now rewrite nth_col. }
      assert (Scz : rsum H (fun c => sc W (cz c) * sc W (cz c)) = sc (W * H) Z * sc (W * H) Z).
      { rewrite (sc_sum Fm (W * H)). transitivity (rsum H (fun c => rsum W (fun r => va Z (r * H + c) * va Z (r * H + c) + lo * lo))).
        - apply rsum_ext. intros c Hc'. rewrite (sc_sum Fm). apply rsum_ext. intros r Hr'. now rewrite vcz.
        - rewrite <- grid_swap. unfold grid. rewrite Nat.mul_comm, rsum_mul. reflexivity. }
      assert (Lecz : forall c, (c < H)%nat -> sc W (cz c) <= sc (W * H) Z).
      { intros c Hc'. apply sq_le_inv; [apply sc0|]. rewrite <- Scz. exact (entry_le H (fun c => sc W (cz c)) c Hc'). }
      assert (IN : forall c, (c < H)%nat -> Forall fin (fw (cz c)) /\
        nrm W (fun j => va (fw (cz c)) j - dhtf W (va (cz c)) j) <= (rw - 1) * (sqrt (INR W) * sc W (cz c))).
      { intros c Hc'. apply Fw; auto.
        - apply (fin_all Fm N _ W); auto. intros r Hr'. unfold cz. rewrite nth_col by auto. apply (fin_nth Fm N); auto. rewrite LZ. nia.
        - eapply Rle_trans; [|exact CW]. rewrite Rmult_assoc. apply Rmult_le_compat_l; auto.
          specialize (Lecz c Hc'). replace ((1 + delta) * (sqrt (INR W) * sc (W * H) Y)) with (sqrt (INR W) * ((1 + delta) * sc (W * H) Y)) by ring.
          apply Rmult_le_compat_l; lra. }
      assert (LF : length (FC Y) = (W * H)%nat) by apply cols_fun_length.
      split; [exact LF|]. split.
      { apply (fin_all Fm N _ (W * H)); auto. intros j Hj. destruct (rc_split W H j Hj) as (q & c & Hq & Hc' & ->).
        rewrite FC_cell by auto. apply (fin_nth Fm N); [now apply IN|]. rewrite fw_len by apply col_length. now apply pos_lt. }
      (* what an exact transform of the computed columns would give *)
      pose (mid := tab W H (fun q c => dhtf W (va (cz c)) (pos c q))).
      assert (E1 : nrm (W * H) (fun j => va (FC Y) j - nth j mid 0) <= (rw - 1) * (sqrt (INR W) * sc (W * H) Z)).
      { apply ss_le_nrm; [apply Rmult_le_pos; [lra|apply Rmult_le_pos; [lra|apply sc0]]|].
        rewrite ss_grid, grid_swap. apply (Rle_trans _ (rsum H (fun c => (rw - 1) * (rw - 1) * INR W * (sc W (cz c) * sc W (cz c))))).
        - apply rsum_le. intros c Hc'. destruct (IN c Hc') as [_ E].
          pose (e p := va (fw (cz c)) p - dhtf W (va (cz c)) p).
          rewrite (rsum_ext W _ (fun q => (fun p => e p * e p) (pos c q))).
          + rewrite (pos_sum c (fun p => e p * e p)). fold (ss W e). rewrite <- nrm_sq. fold e in E.
            replace ((rw - 1) * (rw - 1) * INR W * (sc W (cz c) * sc W (cz c))) with ((rw - 1) * (sqrt (INR W) * sc W (cz c)) * ((rw - 1) * (sqrt (INR W) * sc W (cz c)))).
            * pose proof (nrm0 W e). apply Rmult_le_compat; auto.
            * rewrite <- (sqrt_sqrt (INR W)) at 3 by apply pos_INR. ring.
          + intros q Hq. unfold e, mid. rewrite nth_tab by auto. rewrite !(va_nth Fm N) by (rewrite ?LF, ?fw_len by apply Lcz; auto; nia).
            rewrite FC_cell by auto. reflexivity.
        - rewrite rsum_scal, Scz. right. rewrite <- (sqrt_sqrt (INR W)) at 1 by apply pos_INR. ring. }
      assert (E2 : nrm (W * H) (fun j => nth j mid 0 - nth j (RC (map val Y)) 0) = sqrt (INR W) * nrm (W * H) (fun j => va Z j - nth j z 0)).
      { unfold nrm. rewrite <- sqrt_mult by (try apply pos_INR; apply ss0). f_equal. rewrite !ss_grid, !grid_swap, <- rsum_scal. apply rsum_ext.
        intros c Hc'. pose (e r := va Z (r * H + c) - nth (r * H + c) z 0).
        rewrite (rsum_ext W _ (fun q => (fun p => dhtf W e p * dhtf W e p) (pos c q))).
        - rewrite (pos_sum c (fun p => dhtf W e p * dhtf W e p)). exact (parseval W e).
        - intros q Hq. unfold mid. rewrite nth_tab by auto. rewrite RC_cell by auto. unfold e. rewrite dhtf_sub. fold z.
          rewrite (dhtf_ext W (va (cz c)) (fun r => va Z (r * H + c))) by (intros; now rewrite vcz). reflexivity. }
      rewrite (nrm_ext _ _ (fun j => (va (FC Y) j - nth j mid 0) + (nth j mid 0 - nth j (RC (map val Y)) 0))) by (intros; ring).
      eapply Rle_trans; [apply minkowski|]. rewrite E2.
      assert (E3 : sqrt (INR W) * nrm (W * H) (fun j => va Z j - nth j z 0) <= sqrt (INR W) * (delta * sc (W * H) Y)) by (apply Rmult_le_compat_l; lra).
      assert (E4 : (rw - 1) * (sqrt (INR W) * sc (W * H) Z) <= (rw - 1) * (sqrt (INR W) * ((1 + delta) * sc (W * H) Y))).
      { apply Rmult_le_compat_l; [lra|]. apply Rmult_le_compat_l; lra. }
      apply (Rle_trans _ ((rw - 1) * (sqrt (INR W) * ((1 + delta) * sc (W * H) Y)) + sqrt (INR W) * (delta * sc (W * H) Y))); [lra|].
      right. ring.
    Qed.
  End Mixed.
End Cols.
