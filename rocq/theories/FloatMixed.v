(** * Rounding errors of the mixed-radix algorithms *)
From Verif Require Import Lemmas Contract ButterfliesProof NxnProof NxnInst MixedRadixProof MixedContract RealDHT MixedReal
  ButterfliesReal NxnReal.
From Verif Require Export FloatButterflies.
From Coq Require Import Reals Lra Lia List Arith Psatz.
Import ListNotations.
Local Open Scope R_scope.

Section Grid.
  Context {V : Type} (Fm : fmt V) (N : Num V) (RN : rounded Fm N).
  Notation u := (fu Fm). Notation tau := (ftau Fm). Notation rho := (frho Fm). Notation tkf := (tkf Fm). Notation tkn := (tkn Fm). Notation ckn := (ckn Fm). Notation ck := (ck Fm). Notation tk := (tk Fm).
  Let Hu : 0 <= u := r_u _ _ RN.
  Let Ht : 0 <= tau := r_tau _ _ RN.
  Let Hr : 0 <= rho := r_rho _ _ RN.
  Variables (W H : nat).
  Hypothesis Wp : (0 < W)%nat.
  Hypothesis Hp : (0 < H)%nat.
  Variables (p : R) (M : nat -> R) (a : list V) (x : list R).
  Hypothesis p1 : 1 <= p.
  Hypothesis La : length a = (W * H)%nat.
  Hypothesis Lx : length x = (W * H)%nat.
  Hypothesis T : forall j, (j < W * H)%nat -> tk p (M j) (nth j a nzero) (nth j x 0).
  Variables (fh : list V -> list V) (phi G : R).
  Hypothesis phi1 : 1 <= phi.
  Hypothesis G1 : 0 <= G.
  Hypothesis fh_len : forall y, length y = H -> length (fh y) = H.
  Hypothesis F : tkf fh H phi G.

  (** the weight of residue r *)
  Definition wt (r : nat) : R := rsum H (fun s => M (s * W + r)%nat).
  Lemma wt_pos r : (r < W)%nat -> 0 <= wt r.
  Proof. intros. apply rsum_nonneg. intros s Hs. eapply tk_pos, T. nia. Qed.
  Lemma wt_sum : rsum W wt = rsum (W * H) M.
  Proof. symmetry. apply rsum_stride. Qed.

  (** after the transforms of the rows *)
  Lemma stored_tk r c : (r < W)%nat -> (c < H)%nat ->
    tk (p * phi) (G * wt r) (nth (r * H + c) (map_chunks H fh (@half_rev V N W H a)) nzero)
       (nth (r * H + c) (map_chunks H dht_spec (@half_rev R (RNum rh) W H x)) 0).
  Proof.
    intros Hr' Hc.
    rewrite (nth_map_chunks H W); auto; [|apply half_rev_length].
    rewrite (nth_map_chunks H W); auto; [|apply half_rev_length|intros y Hy; now rewrite dht_spec_length].
    unfold half_rev. rewrite !slice_tab by auto.
    rewrite nth_dht_spec by (now rewrite map_length, seq_length).
    pose (M' s := M ((if (r <=? W / 2)%nat then s else H - 1 - s) * W + r)%nat).
    replace (wt r) with (rsum H M').
    2:{ unfold wt, M'. destruct (r <=? W / 2)%nat; auto. symmetry. apply rsum_rev. }
    apply F; auto; try (now rewrite map_length, seq_length).
    intros s Hs. rewrite !nth_map_seq by auto. rewrite !Nat.add_0_l. unfold M'. cbn [nzero RNum].
    destruct (r <=? W / 2)%nat; apply T; nia.
  Qed.

  (** ** the columns *)
  Definition tkl (q : R) (m : nat -> R) (n : nat) (f : list V) (f' : list R) : Prop :=
    length f = n /\ length f' = n /\ forall r, (r < n)%nat -> tk q (m r) (nth r f nzero) (nth r f' 0).
  Lemma col_tkl c : (c < H)%nat ->
    tkl (p * phi) (fun r => G * wt r) W (@col V N W H (map_chunks H fh (@half_rev V N W H a)) c)
        (@col R (RNum rh) W H (map_chunks H dht_spec (@half_rev R (RNum rh) W H x)) c).
  Proof.
    intros Hc. split; [apply col_length|]. split; [apply col_length|]. intros r Hr'.
    rewrite !nth_col by auto. now apply stored_tk.
  Qed.

  Context {A B : Type} (bfp : list V -> list V) (bfx : list R -> list R) (pairp : A -> list V -> list V -> list V * list V)
    (pairx : B -> list R -> list R -> list R * list R) (twa : nat -> A) (twx : nat -> B) (Q Mt : R).
  Hypothesis bf_tk : forall f f', tkl (p * phi) (fun r => G * wt r) W f f' ->
    forall q, (q < W)%nat -> tk Q Mt (nth q (bfp f) nzero) (nth q (bfx f') 0).
  Hypothesis pair_tk : forall c f f' v v', (c < H)%nat -> tkl (p * phi) (fun r => G * wt r) W f f' -> tkl (p * phi) (fun r => G * wt r) W v v' ->
    forall q, (q < W)%nat -> tk Q Mt (nth q (fst (pairp (twa c) f v)) nzero) (nth q (fst (pairx (twx c) f' v')) 0) /\
                            tk Q Mt (nth q (snd (pairp (twa c) f v)) nzero) (nth q (snd (pairx (twx c) f' v')) 0).
  Lemma cols_tk k : (k < W * H)%nat ->
    tk Q Mt (nth k (@cols_fun V N A W H bfp pairp twa (map_chunks H fh (@half_rev V N W H a))) nzero)
            (nth k (@cols_fun R (RNum rh) B W H bfx pairx twx (map_chunks H dht_spec (@half_rev R (RNum rh) W H x))) 0).
  Proof.
    intros Hk. destruct (rc_split W H k Hk) as (q & c & Hq & Hc & ->).
    unfold cols_fun. rewrite !nth_tab by auto. unfold cols_cell. cbn [nzero RNum].
    destruct (Nat.eqb_spec c 0) as [->|Nc]; [apply bf_tk; auto using col_tkl|].
    destruct (Nat.ltb_spec (2 * c) H); apply pair_tk; auto; try (apply col_tkl; lia); lia.
  Qed.
End Grid.

Section Kernels.
  Context {V : Type} (Fm : fmt V) (N : Num V) (RN : rounded Fm N).
  Notation u := (fu Fm). Notation tau := (ftau Fm). Notation rho := (frho Fm). Notation tkf := (tkf Fm). Notation tkn := (tkn Fm). Notation ckn := (ckn Fm). Notation ck := (ck Fm). Notation tk := (tk Fm).
  Let Hu : 0 <= u := r_u _ _ RN.
  Let Ht : 0 <= tau := r_tau _ _ RN.
  Let Hr : 0 <= rho := r_rho _ _ RN.

  Lemma twist_tk pt q m S1 S2 c c' s s' a a' b b' :
    ck pt m c c' -> ck pt m s s' -> tk q S1 a a' -> tk q S2 b b' ->
    tk (pt * q * (1 + u) * (1 + u)) (m * S1 + m * S2) (@nadd V N (@nmul V N c a) (@nmul V N s b)) (c' * a' + s' * b') /\
    tk (pt * q * (1 + u) * (1 + u)) (m * S1 + m * S2) (@nsub V N (@nmul V N c a) (@nmul V N s b)) (c' * a' - s' * b').
  Proof.
    intros C S Ta Tb.
    pose proof (tk_cmul _ _ RN _ _ _ _ _ _ _ _ C Ta). pose proof (tk_cmul _ _ RN _ _ _ _ _ _ _ _ S Tb).
    split; [now apply (tk_add _ _ RN)|now apply (tk_sub _ _ RN)].
  Qed.

  (** the scaled twiddles *)
  Lemma tw8_ck W H r c : (0 < W)%nat -> (0 < H)%nat -> (r < W)%nat -> (c < H)%nat -> usz (W * H * 8) ->
    ck ((1 + tau) * (1 + rho) * (1 + u)) 1 (re (@tw8 V N W H r c)) (re (@tw8 R (RNum rh) W H r c)) /\
    ck ((1 + tau) * (1 + rho) * (1 + u)) 1 (im (@tw8 V N W H r c)) (im (@tw8 R (RNum rh) W H r c)).
  Proof.
    intros Wp Hp Hr' Hc Us. unfold tw8, cscale. cbn [re im nmul nroot_half RNum].
    assert (B : (r * c * 8 + W * H <= 2 * (W * H * 8))%nat) by nia.
    assert (P2 : 1 <= (1 + tau) * (1 + rho)) by nra. assert (P : 1 <= (1 + tau) * (1 + rho) * (1 + u)) by nra.
    destruct (r_root _ _ RN) as [Fr Er].
    assert (R1 : 0 < rh <= 1).
    { unfold rh. split; [apply sqrt_lt_R0; lra|]. rewrite <- sqrt_1. apply sqrt_le_1_alt. lra. }
    assert (AR : ak Fm (1 + rho) 1 (@nroot_half V N) rh).
    { split; auto. split; [nra|]. rewrite Rabs_pos_eq; lra. }
    pose proof (lo_1 _ _ RN). pose proof (r_hi _ _ RN).
    split; (split; [auto|split; [lra|]]); replace 1 with (1 * 1) at 4 by lra; (apply (ak_mul _ _ RN); auto; try lra);
      [apply (ck_cos _ _ RN)|apply (ck_sin _ _ RN)]; auto; nia.
  Qed.
  Section Cell.
    Variables (W : nat) (q : R) (m : nat -> R) (ta : nat -> cplx V) (tx : nat -> cplx R) (pt : R) (f v : list V) (f' v' : list R).
    Hypothesis q1 : 1 <= q.
    Hypothesis pt1 : 1 <= pt.
    Hypothesis Tw : forall r, (r < W)%nat -> ck pt 1 (re (ta r)) (re (tx r)) /\ ck pt 1 (im (ta r)) (im (tx r)).
    Hypothesis Hf : tkl Fm N q m W f f'.
    Hypothesis Hv : tkl Fm N q m W v v'.
    Let B (r : nat) : R := if (r =? 0)%nat then m 0%nat else 2 * (m r + m (W - r)%nat).

    Lemma mixed_cell_tk r : (r < W)%nat ->
      tk (q * pt * ((1 + u) * (1 + u) * (1 + u))) (B r) (@mixed_fwd V N W ta f v r) (@mixed_fwd R (RNum rh) W tx f' v' r) /\
      tk (q * pt * ((1 + u) * (1 + u) * (1 + u))) (B r) (@mixed_rev V N W ta f v r) (@mixed_rev R (RNum rh) W tx f' v' r).
    Proof.
      intros Hr'. destruct Hf as (_ & _ & Tf), Hv as (_ & _ & Tv).
      assert (U3 : 1 <= (1 + u) * (1 + u) * (1 + u)) by nra.
      unfold mixed_fwd, mixed_rev, B. cbn [nzero nadd nsub nmul RNum].
      destruct (Nat.eqb_spec r 0) as [->|Nr].
      { assert (q <= q * pt * ((1 + u) * (1 + u) * (1 + u))).
        { rewrite Rmult_assoc. rewrite <- (Rmult_1_r q) at 1. apply Rmult_le_compat_l; nra. }
        split; (apply (tk_mono Fm q _ (m 0%nat)); auto; try lra). }
      assert (R : forall i j, (i < W)%nat -> (j < W)%nat ->
          tk (q * (1 + u)) (m i + m j) (@nadd V N (nth i f nzero) (nth j v nzero)) (nth i f' 0 + nth j v' 0) /\
          tk (q * (1 + u)) (m i + m j) (@nsub V N (nth i f nzero) (nth j v nzero)) (nth i f' 0 - nth j v' 0)).
      { intros i j Hi Hj. split; [apply (tk_add _ _ RN)|apply (tk_sub _ _ RN)]; auto. }
      assert (E : forall S1 S2 o e, S1 + S2 = 2 * (m r + m (W - r)%nat) ->
         tk (pt * (q * (1 + u)) * (1 + u) * (1 + u)) (1 * S1 + 1 * S2) o e ->
         tk (q * pt * ((1 + u) * (1 + u) * (1 + u))) (2 * (m r + m (W - r)%nat)) o e).
      { intros S1 S2 o e ES. replace (1 * S1 + 1 * S2) with (S1 + S2) by ring. rewrite ES.
        replace (pt * (q * (1 + u)) * (1 + u) * (1 + u)) with (q * pt * ((1 + u) * (1 + u) * (1 + u))) by ring. auto. }
      destruct (Tw r Hr') as [C S], (Tw (W - r)%nat ltac:(lia)) as [C' S'].
      destruct (Nat.ltb_spec (2 * r) W); [|destruct (Nat.eqb_spec (2 * r) W) as [E2|E2]].
      - destruct (R r (W - r)%nat ltac:(lia) ltac:(lia)) as [P1 P2], (R (W - r)%nat r ltac:(lia) ltac:(lia)) as [P3 P4].
        split; (eapply E; [|apply (twist_tk _ _ _ _ _ _ _ _ _ _ _ _ _ C S)]); eauto; lra.
      - replace (W - r)%nat with r in * by lia.
        destruct (R r r ltac:(lia) ltac:(lia)) as [P1 P2].
        split; (eapply E; [|apply (twist_tk _ _ _ _ _ _ _ _ _ _ _ _ _ C S)]); eauto; lra.
      - destruct (R r (W - r)%nat ltac:(lia) ltac:(lia)) as [P1 P2], (R (W - r)%nat r ltac:(lia) ltac:(lia)) as [P3 P4].
        split; (eapply E; [|apply (twist_tk _ _ _ _ _ _ _ _ _ _ _ _ _ C' S')]); eauto; lra.
    Qed.
  End Cell.

  Lemma B_sum W m : (forall r, (r < W)%nat -> 0 <= m r) ->
    rsum W (fun r => if (r =? 0)%nat then m 0%nat else 2 * (m r + m (W - r)%nat)) <= 4 * rsum W m.
  Proof.
    destruct W as [|n]; intros Pm; [simpl; lra|]. rewrite !rsum_S_l.
    rewrite (rsum_ext n _ (fun j => 2 * (m (S j) + m (n - j)%nat))).
    2:{ intros j Hj. reflexivity. }
    rewrite rsum_scal, rsum_add.
    assert (E : rsum n (fun j => m (n - j)%nat) = rsum n (fun j => m (S j))).
    { rewrite (rsum_rev n (fun j => m (S j))). apply rsum_ext. intros j Hj. f_equal. lia. }
    rewrite E. simpl (0 =? 0)%nat. cbv iota. pose proof (Pm 0%nat ltac:(lia)).
    assert (0 <= rsum n (fun j => m (S j))) by (apply rsum_nonneg; intros; apply Pm; lia). lra.
  Qed.

  Variables (dw dh : Dht V) (fw fh : list V -> list V) (phiw Gw phih Gh : R).
  Let W := dht_len dw.
  Let H := dht_len dh.
  Hypothesis Wp : (0 < W)%nat.
  Hypothesis Hp : (0 < H)%nat.
  Hypothesis Us : usz (W * H * 8).
  Hypothesis fw_len : forall y, length y = W -> length (fw y) = W.
  Hypothesis fh_len : forall y, length y = H -> length (fh y) = H.
  Hypothesis phiw1 : 1 <= phiw.
  Hypothesis phih1 : 1 <= phih.
  Hypothesis Gw1 : 0 <= Gw.
  Hypothesis Gh1 : 0 <= Gh.
  Hypothesis Fw : tkf fw W phiw Gw.
  Hypothesis Fh : tkf fh H phih Gh.

  Lemma mixed_tkf : tkf (@mixed_fun V N dw dh fw fh) (W * H) (phih * phiw * (1 + rho) * fac u tau 4 1) (4 * Gw * Gh).
  Proof.
    intros p M a x p1 La Lx T k Hk.
    rewrite <- nth_dht_spec by lia.
    pose (dxw := {| dht_len := W; dht_inplace_scratch := 0; dht_oop_scratch := 0; dht_process_with_scratch := fun b s => Ok (b, s); dht_process_oop := fun i o s => Ok (i, o, s) |} : Dht R).
    pose (dxh := {| dht_len := H; dht_inplace_scratch := 0; dht_oop_scratch := 0; dht_process_with_scratch := fun b s => Ok (b, s); dht_process_oop := fun i o s => Ok (i, o, s) |} : Dht R).
    rewrite <- (mixed_fun_real rh dxh dht_spec Hp (fun y _ => eq_refl) rh_rho dxw dht_spec x Wp (fun y _ => eq_refl) Lx).
    unfold mixed_fun. cbn [dht_len dxw dxh]. fold W H.
    set (pt := (1 + tau) * (1 + rho) * (1 + u)).
    assert (pt1 : 1 <= pt) by (unfold pt; assert (1 <= (1 + tau) * (1 + rho)) by nra; nra).
    set (Q := p * phih * pt * ((1 + u) * (1 + u) * (1 + u)) * phiw).
    replace (p * (phih * phiw * (1 + rho) * fac u tau 4 1)) with Q by (unfold Q, pt, fac; simpl; ring).
    assert (q1 : 1 <= p * phih) by nra.
    assert (U3 : 1 <= (1 + u) * (1 + u) * (1 + u)) by nra.
    assert (q2 : 1 <= p * phih * pt * ((1 + u) * (1 + u) * (1 + u))) by (assert (1 <= p * phih * pt) by nra; nra).
    pose (m r := Gh * wt W H M r).
    assert (Pm : forall r, (r < W)%nat -> 0 <= m r).
    { intros r Hr'. apply Rmult_le_pos; auto. apply (wt_pos Fm N W H Wp Hp p M a x La Lx T); auto. }
    assert (Sm : rsum W m = Gh * rsum (W * H) M).
    { unfold m. rewrite rsum_scal. f_equal. apply wt_sum. }
    pose proof (rsum_nonneg W m Pm) as Sm0.
    apply (cols_tk Fm N W H Wp Hp p M a x p1 La Lx T fh phih Gh fh_len Fh); auto.
    - intros f f' (Lf & Lf' & Tf) q Hq. rewrite nth_dht_spec by lia.
      apply (tk_mono Fm (p * phih * phiw) _ (Gw * rsum W m)).
      + nra.
      + unfold Q. assert (p * phih <= p * phih * pt * ((1 + u) * (1 + u) * (1 + u))); [|nra].
        rewrite Rmult_assoc. rewrite <- (Rmult_1_r (p * phih)) at 1. apply Rmult_le_compat_l; nra.
      + rewrite Sm. rewrite Sm in Sm0. replace (4 * Gw * Gh * rsum (W * H) M) with (4 * (Gw * (Gh * rsum (W * H) M))) by ring.
        assert (0 <= Gw * (Gh * rsum (W * H) M)) by (apply Rmult_le_pos; auto). nra.
      + apply Fw; auto.
    - intros c f f' v v' Hc Tf Tv q Hq.
      assert (Tw : forall r, (r < W)%nat -> ck pt 1 (re (@tw8 V N W H r c)) (re (@tw8 R (RNum rh) W H r c)) /\
                             ck pt 1 (im (@tw8 V N W H r c)) (im (@tw8 R (RNum rh) W H r c))) by (intros; now apply tw8_ck).
      pose proof (mixed_cell_tk W (p * phih) m _ _ pt f v f' v' q1 pt1 Tw Tf Tv) as MC.
      pose proof (B_sum W m Pm) as BS.
      set (B := fun r : nat => if (r =? 0)%nat then m 0%nat else 2 * (m r + m (W - r)%nat)) in *.
      assert (LE : Gw * rsum W B <= 4 * Gw * Gh * rsum (W * H) M).
      { rewrite Sm in BS. replace (4 * Gw * Gh * rsum (W * H) M) with (Gw * (4 * (Gh * rsum (W * H) M))) by ring.
        apply Rmult_le_compat_l; auto. }
      assert (Q1 : 1 <= Q) by (unfold Q; nra).
      assert (K : forall (ga : nat -> V) (gx : nat -> R) i, (i < W)%nat ->
        (forall r, (r < W)%nat -> tk (p * phih * pt * ((1 + u) * (1 + u) * (1 + u))) (B r) (ga r) (gx r)) ->
        tk Q (4 * Gw * Gh * rsum (W * H) M) (nth i (fw (map ga (seq 0 W))) nzero) (nth i (dht_spec (map gx (seq 0 W))) 0)).
      { intros ga gx i Hi TT. rewrite nth_dht_spec by (now rewrite map_length, seq_length).
        apply (tk_mono Fm Q _ (Gw * rsum W B)); auto; [lra|].
        apply Fw; auto; try (now rewrite map_length, seq_length).
        intros j Hj. rewrite !nth_map_seq by auto. now apply TT. }
      unfold mixed_pairp. cbn [fst snd]. split; [apply K; auto; apply MC; auto|].
      assert (L1 : length (fw (map (mixed_rev W (fun r => @tw8 V N W H r c) f v) (seq 0 W))) = W) by (apply fw_len; now rewrite map_length, seq_length).
      assert (L2 : length (dht_spec (map (@mixed_rev R (RNum rh) W (fun r => @tw8 R (RNum rh) W H r c) f' v') (seq 0 W))) = W)
        by (rewrite dht_spec_length; now rewrite map_length, seq_length).
      rewrite !nth_rev' by lia. rewrite L1, L2. apply K; [lia|]. apply MC.
  Qed.
End Kernels.

(** ** 2xn and 4xn *)
Ltac prods := repeat match goal with H : tkl _ _ _ _ _ |- _ => destruct H as (? & ? & ?) end.
Ltac ins Fm n T :=
  let rec go j :=
    lazymatch j with
    | O => idtac
    | S ?i => let H := fresh "In" in
              pose proof (tkn_in Fm _ _ _ _ (T i ltac:(lia))) as H; cbn [nth] in H;
              let P := fresh "Pos" in pose proof (tk_pos _ _ _ _ _ (T i ltac:(lia))) as P; go i
    end in go n.

Section Nxn.
  Context {V : Type} (Fm : fmt V) (N : Num V) (RN : rounded Fm N).
  Notation u := (fu Fm). Notation tau := (ftau Fm). Notation rho := (frho Fm). Notation tkf := (tkf Fm). Notation tkn := (tkn Fm). Notation ckn := (ckn Fm). Notation ck := (ck Fm). Notation tk := (tk Fm).
  Let Hu : 0 <= u := r_u _ _ RN.
  Let Ht : 0 <= tau := r_tau _ _ RN.

  Ltac cell :=
    cbn [nth]; eapply (tkn_mono _ _ RN); [eassumption| | | |expr]; [cbn; lia|cbn; lia|cbn -[Rmult Rplus]; lra].

  Lemma radix2_pair_tk p m ta tx f f' v v' : 1 <= p -> tkl Fm N p m 2 f f' -> tkl Fm N p m 2 v v' ->
    ckn 0 1 1 (re ta) (re tx) -> ckn 0 1 1 (im ta) (im tx) ->
    forall q, (q < 2)%nat ->
      tkn p 3 1 (2 * rsum 2 m) (nth q (fst (@radix2_pairp V N ta f v)) nzero) (nth q (fst (@radix2_pairp R (RNum rh) tx f' v')) 0) /\
      tkn p 3 1 (2 * rsum 2 m) (nth q (snd (@radix2_pairp V N ta f v)) nzero) (nth q (snd (@radix2_pairp R (RNum rh) tx f' v')) 0).
  Proof.
    intros Hp (Lf & Lf' & Tf) (Lv & Lv' & Tv) C S q Hq.
    destruct ta as [c s], tx as [c' s']. cbn [re im] in C, S.
    list_of 2%nat f Lf. list_of 2%nat f' Lf'. list_of 2%nat v Lv. list_of 2%nat v' Lv'.
    ins Fm 2%nat Tf. ins Fm 2%nat Tv. clear Tf Tv.
    unfold radix2_pairp. cbn -[Rmult Rplus Rminus Ropp IZR nth].
    destruct q as [|[|q]]; [| |lia]; split; cell.
  Qed.
  Lemma radix4_pair_tk p m t1 t2 x1 x2 f f' v v' : 1 <= p -> tkl Fm N p m 4 f f' -> tkl Fm N p m 4 v v' ->
    ckn 0 1 1 (re t1) (re x1) -> ckn 0 1 1 (im t1) (im x1) ->
    ckn 0 1 1 (re t2) (re x2) -> ckn 0 1 1 (im t2) (im x2) ->
    forall q, (q < 4)%nat ->
      tkn p 4 1 (2 * rsum 4 m) (nth q (fst (@radix4_pairp V N [t1; t2] f v)) nzero) (nth q (fst (@radix4_pairp R (RNum rh) [x1; x2] f' v')) 0) /\
      tkn p 4 1 (2 * rsum 4 m) (nth q (snd (@radix4_pairp V N [t1; t2] f v)) nzero) (nth q (snd (@radix4_pairp R (RNum rh) [x1; x2] f' v')) 0).
  Proof.
    intros Hp (Lf & Lf' & Tf) (Lv & Lv' & Tv) C1 S1 C2 S2 q Hq.
    destruct t1 as [c s], x1 as [c' s'], t2 as [d t], x2 as [d' t']. cbn [re im] in C1, S1, C2, S2.
    list_of 4%nat f Lf. list_of 4%nat f' Lf'. list_of 4%nat v Lv. list_of 4%nat v' Lv'.
    ins Fm 4%nat Tf. ins Fm 4%nat Tv. clear Tf Tv.
    unfold radix4_pairp. cbn -[Rmult Rplus Rminus Ropp IZR nth].
    destruct q as [|[|[|[|q]]]]; [| | | |lia]; split; cell.
  Qed.

  Variables (d : Dht V) (fi : list V -> list V) (phi G : R).
  Let H := dht_len d.
  Hypothesis Hp : (0 < H)%nat.
  Hypothesis Us : usz (8 * H).
  Hypothesis fi_len : forall y, length y = H -> length (fi y) = H.
  Hypothesis phi1 : 1 <= phi.
  Hypothesis G1 : 0 <= G.
  Hypothesis F : tkf fi H phi G.

  Lemma radix2_tkf : tkf (@radix2_fun V N d fi) (2 * H) (phi * fac u tau 3 1) (2 * G).
  Proof.
    intros p M a x p1 La Lx T k Hk.
    rewrite <- nth_dht_spec by lia.
    pose (dx := {| dht_len := H; dht_inplace_scratch := 0; dht_oop_scratch := 0; dht_process_with_scratch := fun b s => Ok (b, s); dht_process_oop := fun i o s => Ok (i, o, s) |} : Dht R).
    rewrite <- (radix2_fun_real rh dx dht_spec Hp (fun y _ => eq_refl) x Lx).
    unfold radix2_fun, nxn_fun, radix2_cols. cbn [dht_len dx]. fold H.
    assert (q1 : 1 <= p * phi) by nra.
    assert (Em : 2 * G * rsum (2 * H) M = 2 * rsum 2 (fun r => G * wt 2 H M r)) by (rewrite rsum_scal, wt_sum; ring).
    rewrite Em, <- Rmult_assoc.
    apply (cols_tk Fm N 2 H ltac:(lia) Hp p M a x p1 La Lx T fi phi G fi_len F); auto.
    - intros f f' (Lf & Lf' & Tf) q Hq.
      pose proof (bf2_near Fm N RN (p * phi) _ f f' q q1 Lf Lf' Hq Tf) as B.
      apply (tkn_mono _ _ RN _ q1 1 0 3 1 (1 * rsum 2 (fun r => G * wt 2 H M r))); auto; try lia.
      pose proof (tk_pos _ _ _ _ _ (Tf 0%nat ltac:(lia))). pose proof (tk_pos _ _ _ _ _ (Tf 1%nat ltac:(lia))).
      cbn [rsum]. cbv beta in *. lra.
    - intros c f f' v v' Hc Tf Tv q Hq. apply radix2_pair_tk; auto; unfold tw2; apply (ckn_dft _ _ RN); unfold usz in *; lia.
  Qed.
  Lemma radix4_tkf : tkf (@radix4_fun V N d fi) (4 * H) (phi * fac u tau 4 1) (2 * G).
  Proof.
    intros p M a x p1 La Lx T k Hk.
    rewrite <- nth_dht_spec by lia.
    pose (dx := {| dht_len := H; dht_inplace_scratch := 0; dht_oop_scratch := 0; dht_process_with_scratch := fun b s => Ok (b, s); dht_process_oop := fun i o s => Ok (i, o, s) |} : Dht R).
    rewrite <- (radix4_fun_real rh dx dht_spec Hp (fun y _ => eq_refl) x Lx).
    unfold radix4_fun, nxn_fun, radix4_cols. cbn [dht_len dx]. fold H.
    assert (q1 : 1 <= p * phi) by nra.
    assert (Em : 2 * G * rsum (4 * H) M = 2 * rsum 4 (fun r => G * wt 4 H M r)) by (rewrite rsum_scal, wt_sum; ring).
    rewrite Em, <- Rmult_assoc.
    apply (cols_tk Fm N 4 H ltac:(lia) Hp p M a x p1 La Lx T fi phi G fi_len F); auto.
    - intros f f' (Lf & Lf' & Tf) q Hq.
      pose proof (bf4_near Fm N RN (p * phi) _ f f' q q1 Lf Lf' Hq Tf) as B.
      apply (tkn_mono _ _ RN _ q1 2 0 4 1 (1 * rsum 4 (fun r => G * wt 4 H M r))); auto; try lia.
      pose proof (tk_pos _ _ _ _ _ (Tf 0%nat ltac:(lia))). pose proof (tk_pos _ _ _ _ _ (Tf 1%nat ltac:(lia))).
      pose proof (tk_pos _ _ _ _ _ (Tf 2%nat ltac:(lia))). pose proof (tk_pos _ _ _ _ _ (Tf 3%nat ltac:(lia))).
      cbn [rsum]. cbv beta in *. lra.
    - intros c f f' v v' Hc Tf Tv q Hq. apply radix4_pair_tk; auto; apply (ckn_dft _ _ RN); unfold usz in *; lia.
  Qed.
End Nxn.
