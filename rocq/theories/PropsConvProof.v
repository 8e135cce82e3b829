(** * Proofs of the properties in PropsConv.v *)
From Verif Require Export ConvSpec PropsStableProof PropsRoundProof.
From Verif Require Import Lemmas RealDHT DHTTheory L2 FloatTree TreeProof Contract NumSpec RootProofs.
From Flocq Require Import Core.
From Coq Require Import Reals Lra Lia NArith List.
Local Open Scope R_scope.

(** ** exact *)
Definition comb (n : nat) (U V : nat -> R) (k : nat) : R :=
  U k * (V k + V (neg_idx n k)) + U (neg_idx n k) * (V k - V (neg_idx n k)).

Lemma comb_conv n u v k : (k < n)%nat -> comb n (dhtf n u) (dhtf n v) k = 2 * dhtf n (convf n u v) k.
Proof. intros H. unfold comb. rewrite conv_theorem, !dhtf_neg by lia. rewrite !dhtf_parts. ring. Qed.

Lemma entry_nrm n f k : (k < n)%nat -> Rabs (f k) <= nrm n f.
Proof. intros H. apply sq_le_inv; [apply nrm0|]. rewrite nrm_sq, <- Rabs_mult, Rabs_pos_eq by apply sq0. now apply entry_le. Qed.

Lemma nrm_neg n f : nrm n (fun k => f (neg_idx n k)) = nrm n f.
Proof.
  unfold nrm, ss. f_equal. destruct n as [|n]; [reflexivity|].
  apply (rsum_perm (S n) (neg_idx (S n)) (neg_idx (S n)) (fun k => f k * f k)); intros k Hk; (split; [apply neg_idx_lt; lia|now apply neg_idx_invol]).
Qed.
Lemma nrm_rabs n f : nrm n (fun k => Rabs (f k)) = nrm n f.
Proof. unfold nrm, ss. f_equal. apply rsum_ext. intros k _. rewrite <- Rabs_mult. apply Rabs_pos_eq, sq0. Qed.
Lemma nrm_pair n f : nrm n (fun k => Rabs (f k) + Rabs (f (neg_idx n k))) <= 2 * nrm n f.
Proof.
  eapply Rle_trans; [apply (minkowski n (fun k => Rabs (f k)) (fun k => Rabs (f (neg_idx n k))))|].
  rewrite (nrm_neg n (fun k => Rabs (f k))), !nrm_rabs. lra.
Qed.
Lemma pm_abs a b : Rabs (a + b) <= Rabs a + Rabs b /\ Rabs (a - b) <= Rabs a + Rabs b.
Proof. split; [apply Rabs_triang|]. unfold Rminus. eapply Rle_trans; [apply Rabs_triang|]. rewrite Rabs_Ropp. lra. Qed.

Lemma comb_nrm n U V : nrm n (comb n U V) <= 4 * (nrm n U * nrm n V).
Proof.
  pose proof (nrm0 n U) as U0.
  apply (Rle_trans _ (nrm n (fun k => 2 * nrm n U * (Rabs (V k) + Rabs (V (neg_idx n k)))))).
  - apply nrm_le. intros k Hk. unfold comb. pose proof (entry_nrm n U k Hk) as A. pose proof (entry_nrm n U (neg_idx n k) ltac:(apply neg_idx_lt; lia)) as B.
    destruct (pm_abs (V k) (V (neg_idx n k))) as [P M]. eapply Rle_trans; [apply Rabs_triang|]. rewrite !Rabs_mult.
    set (W := Rabs (V k) + Rabs (V (neg_idx n k))) in *. replace (2 * nrm n U * W) with (nrm n U * W + nrm n U * W) by ring.
    apply Rplus_le_compat; apply Rmult_le_compat; auto using Rabs_pos.
  - rewrite nrm_scal by lra. pose proof (nrm_pair n V). nra.
Qed.

Section Any.
  Context {T : Type} (F : fmt T) (N : Num T) (RN : rounded F N).
  Local Hint Extern 0 (Num T) => exact N : typeclass_instances.
  Notation u := (fu F).

  (** ** one entry *)
  Lemma entry_round (p q g h : T) (P M : R) : ffin F p -> ffin F q -> ffin F g -> ffin F h ->
    Rabs (fval F p) <= P -> Rabs (fval F q) <= P -> Rabs (fval F g) + Rabs (fval F h) <= M ->
    M <= fhi F -> (1 + u) * (P * M) <= fhi F -> 2 * ((1 + u) * (1 + u) * (P * M) + u * flo F) <= fhi F ->
    let z := (p *! (g +! h)) +! (q *! (g -! h)) in
    ffin F z /\
    Rabs (fval F z - (fval F p * (fval F g + fval F h) + fval F q * (fval F g - fval F h))) <=
      2 * ((1 + u) * (1 + u) * (1 + u) - 1) * (P * M) + 2 * u * (1 + u) * flo F.
  Proof.
    intros fp fq fg fh Hp Hq HM M1 M2 M3. cbv zeta.
    pose proof (r_u _ _ RN) as u0. pose proof (r_lo _ _ RN) as l0.
    pose proof (Rabs_pos (fval F p)) as p0. pose proof (Rabs_pos (fval F g)) as g0. pose proof (Rabs_pos (fval F h)) as h0.
    assert (P0 : 0 <= P) by lra. assert (M0 : 0 <= M) by lra. assert (PM : 0 <= P * M) by (apply Rmult_le_pos; auto).
    destruct (pm_abs (fval F g) (fval F h)) as [S1 D1].
    destruct (r_add _ _ RN g h fg fh ltac:(lra)) as [fs Es]. destruct (r_sub _ _ RN g h fg fh ltac:(lra)) as [fd Ed].
    set (s := g +! h) in *. set (e := g -! h) in *. set (G := fval F g) in *. set (H := fval F h) in *.
    assert (ES : Rabs (fval F s - (G + H)) <= u * M) by (eapply Rle_trans; [exact Es|]; apply Rmult_le_compat_l; lra).
    assert (ED : Rabs (fval F e - (G - H)) <= u * M) by (eapply Rle_trans; [exact Ed|]; apply Rmult_le_compat_l; lra).
    assert (BS : Rabs (fval F s) <= (1 + u) * M).
    { replace (fval F s) with ((fval F s - (G + H)) + (G + H)) by ring. eapply Rle_trans; [apply Rabs_triang|]. lra. }
    assert (BD : Rabs (fval F e) <= (1 + u) * M).
    { replace (fval F e) with ((fval F e - (G - H)) + (G - H)) by ring. eapply Rle_trans; [apply Rabs_triang|]. lra. }
    assert (prod : forall a b, Rabs a <= P -> Rabs b <= (1 + u) * M -> Rabs (a * b) <= (1 + u) * (P * M)).
    { intros a b Ha Hb. rewrite Rabs_mult. apply (Rle_trans _ (P * ((1 + u) * M))); [|right; ring]. apply Rmult_le_compat; auto using Rabs_pos. }
    pose proof (prod _ _ Hp BS) as B1. pose proof (prod _ _ Hq BD) as B2.
    destruct (r_mul _ _ RN p s fp fs ltac:(lra)) as [f1 E1]. destruct (r_mul _ _ RN q e fq fd ltac:(lra)) as [f2 E2].
    set (v := p *! s) in *. set (w := q *! e) in *.
    assert (mx : forall a, Rabs a <= (1 + u) * (P * M) -> u * Rmax (Rabs a) (flo F) <= u * ((1 + u) * (P * M) + flo F)).
    { intros a Ha. apply Rmult_le_compat_l; auto. apply Rmax_lub; [lra|]. assert (0 <= (1 + u) * (P * M)) by (apply Rmult_le_pos; lra). lra. }
    pose proof (Rle_trans _ _ _ E1 (mx _ B1)) as F1. pose proof (Rle_trans _ _ _ E2 (mx _ B2)) as F2.
    assert (near : forall a b c vv, Rabs a <= P -> Rabs (b - c) <= u * M -> Rabs (vv - a * b) <= u * ((1 + u) * (P * M) + flo F) ->
      Rabs (vv - a * c) <= ((1 + u) * (1 + u) - 1) * (P * M) + u * flo F).
    { intros a b c vv Ha Hb Hv. replace (vv - a * c) with ((vv - a * b) + a * (b - c)) by ring. eapply Rle_trans; [apply Rabs_triang|].
      rewrite Rabs_mult. assert (Rabs a * Rabs (b - c) <= P * (u * M)) by (apply Rmult_le_compat; auto using Rabs_pos). lra. }
    pose proof (near _ _ _ _ Hp ES F1) as N1. pose proof (near _ _ _ _ Hq ED F2) as N2. clear near mx prod.
    assert (X1 : Rabs (fval F p * (G + H)) <= P * M) by (rewrite Rabs_mult; apply Rmult_le_compat; auto using Rabs_pos; lra).
    assert (X2 : Rabs (fval F q * (G - H)) <= P * M) by (rewrite Rabs_mult; apply Rmult_le_compat; auto using Rabs_pos; lra).
    assert (BV : Rabs (fval F v + fval F w) <= 2 * ((1 + u) * (1 + u) * (P * M) + u * flo F)).
    { replace (fval F v + fval F w) with ((fval F v - fval F p * (G + H)) + fval F p * (G + H) + ((fval F w - fval F q * (G - H)) + fval F q * (G - H))) by ring.
      eapply Rle_trans; [apply Rabs_triang|].
      pose proof (Rabs_triang (fval F v - fval F p * (G + H)) (fval F p * (G + H))).
      pose proof (Rabs_triang (fval F w - fval F q * (G - H)) (fval F q * (G - H))). lra. }
    destruct (r_add _ _ RN v w f1 f2 ltac:(lra)) as [fz Ez]. split; [exact fz|]. set (z := v +! w) in *.
    replace (fval F z - (fval F p * (G + H) + fval F q * (G - H))) with
      ((fval F z - (fval F v + fval F w)) + ((fval F v - fval F p * (G + H)) + (fval F w - fval F q * (G - H)))) by ring.
    eapply Rle_trans; [apply Rabs_triang|].
    pose proof (Rabs_triang (fval F v - fval F p * (G + H)) (fval F w - fval F q * (G - H))).
    assert (u * Rabs (fval F v + fval F w) <= u * (2 * ((1 + u) * (1 + u) * (P * M) + u * flo F))) by (apply Rmult_le_compat_l; auto).
    lra.
  Qed.

  (** ** the numbers *)
  Lemma numbers e s a b lo : 0 <= e -> 0 <= u <= e -> 1 <= s -> s <= a -> s <= b -> 0 <= lo <= / 1000 -> 32 * e * (s * (a * b)) <= 1 ->
    let E := 4 * ((1 + u) * (1 + u) * (1 + u) - 1) * (((1 + e) * (s * a)) * ((1 + e) * (s * b))) + 2 * u * (1 + u) * lo * s +
             (4 * ((e * (s * a)) * ((1 + e) * (s * b))) + 4 * ((s * a) * (e * (s * b)))) in
    e <= / 32 /\ 1 <= s * (a * b) /\ E <= 22 * e * (s * s * (a * b)) /\ 4 * (s * s * (a * b)) + E + s * lo <= 48 / 10 * (s * s * (a * b)) /\
    2 * ((1 + u) * (1 + u) * (((1 + e) * (s * a)) * (2 * ((1 + e) * (s * b)))) + u * lo) <= 5 * (s * s * (a * b)).
  Proof.
    intros e0 Hu s1 Ha Hb Hl H. cbv zeta.
    assert (ab : 1 <= a * b) by nra. set (w := a * b) in *. assert (sw : s <= s * w) by nra. assert (e1 : e <= / 32) by nra.
    assert (ssw : s * w <= s * s * w) by nra. set (W := s * s * w) in *. assert (W1 : 1 <= W) by lra. assert (sW : s <= W) by lra.
    replace ((1 + e) * (s * a) * ((1 + e) * (s * b))) with ((1 + e) * (1 + e) * W) by (unfold W, w; ring).
    replace (e * (s * a) * ((1 + e) * (s * b))) with (e * (1 + e) * W) by (unfold W, w; ring).
    replace (s * a * (e * (s * b))) with (e * W) by (unfold W, w; ring).
    replace ((1 + e) * (s * a) * (2 * ((1 + e) * (s * b)))) with (2 * ((1 + e) * (1 + e)) * W) by (unfold W, w; ring).
    assert (c3 : (1 + u) * (1 + u) * (1 + u) - 1 <= 31 / 10 * e).
    { apply (Rle_trans _ ((1 + e) * (1 + e) * (1 + e) - 1)).
      - assert ((1 + u) * (1 + u) <= (1 + e) * (1 + e)) by (apply Rmult_le_compat; lra).
        assert ((1 + u) * (1 + u) * (1 + u) <= (1 + e) * (1 + e) * (1 + e)) by (apply Rmult_le_compat; nra). lra.
      - nra. }
    assert (c30 : 0 <= (1 + u) * (1 + u) * (1 + u) - 1) by nra.
    assert (c2 : 1 <= (1 + e) * (1 + e) <= 1064 / 1000) by nra.
    assert (cu : 1 <= (1 + u) * (1 + u) <= 1064 / 1000) by nra.
    assert (E1 : 4 * ((1 + u) * (1 + u) * (1 + u) - 1) * ((1 + e) * (1 + e) * W) <= 4 * (31 / 10 * e) * (1064 / 1000 * W)).
    { apply Rmult_le_compat; nra. }
    assert (E2 : 2 * u * (1 + u) * lo * s <= 2 * e * (33 / 32) * / 1000 * W).
    { assert (U2 : 0 <= 2 * u * (1 + u) <= 2 * e * (33 / 32)) by nra.
      assert (U3 : 0 <= 2 * u * (1 + u) * lo <= 2 * e * (33 / 32) * / 1000) by (split; [apply Rmult_le_pos; lra|apply Rmult_le_compat; lra]).
      apply Rmult_le_compat; lra. }
    assert (E3 : e * (1 + e) * W <= e * (33 / 32) * W) by (apply Rmult_le_compat_r; nra).
    set (E := _ + _ + _). assert (HE : E <= 22 * e * W).
    { unfold E. assert (0 <= e * W) by nra. lra. }
    assert (eW : e * W <= / 32 * W) by (apply Rmult_le_compat_r; lra).
    split; [exact e1|]. split; [lra|]. split; [exact HE|]. split.
    - assert (s * lo <= W * / 1000) by (apply Rmult_le_compat; lra). lra.
    - assert ((1 + u) * (1 + u) * (2 * ((1 + e) * (1 + e)) * W) <= 1064 / 1000 * (2 * (1064 / 1000) * W)).
      { apply Rmult_le_compat; nra. }
      assert (u * lo <= / 32 * / 1000) by (apply Rmult_le_compat; lra). lra.
  Qed.
  Lemma flo_small : 0 <= flo F <= / 1000.
  Proof.
    pose proof (r_lo _ _ RN). pose proof (r_lo_small _ _ RN) as S. split; auto.
    assert (1000 <= 2 ^ 64). { apply (Rle_trans _ (2 ^ 10)); [simpl; lra|]. apply Rle_pow; [lra|lia]. } nra.
  Qed.

  (** ** one spectrum *)
  Section Spectra.
    Variables (n : nat) (f : list T -> list T) (e C : R).
    Hypothesis e0 : 0 <= e.
    Hypothesis C1 : 1 <= C.
    Hypothesis n0 : (0 < n)%nat.
    Hypothesis Lf : forall x, length x = n -> length (f x) = n.
    Hypothesis Hf : rmsf F f n (1 + e) C.
    Notation s := (sqrt (INR n)).
    Let s1 : 1 <= s. Proof. now apply sqrt1. Qed.

    Lemma spectrum x a : length x = n -> Forall (ffin F) x -> sc F n x <= a -> C * (s * a) <= fhi F ->
      Forall (ffin F) (f x) /\ nrm n (fun j => va F (f x) j - dhtf n (va F x) j) <= e * (s * a) /\
      nrm n (dhtf n (va F x)) <= s * a /\ nrm n (va F (f x)) <= (1 + e) * (s * a).
    Proof.
      intros Lx Fx Hs Hc. pose proof (sc0 F n x) as S0.
      assert (sa : s * sc F n x <= s * a) by (apply Rmult_le_compat_l; lra).
      destruct (Hf x Lx Fx) as [F1 E1]; [eapply Rle_trans; [|exact Hc]; apply Rmult_le_compat_l; lra|].
      assert (E2 : nrm n (fun j => va F (f x) j - dhtf n (va F x) j) <= e * (s * a)).
      { eapply Rle_trans; [exact E1|]. replace (1 + e - 1) with e by ring. apply Rmult_le_compat_l; auto. }
      assert (E3 : nrm n (dhtf n (va F x)) <= s * a).
      { rewrite nrm_dhtf. apply Rmult_le_compat_l; [lra|]. eapply Rle_trans; [|exact Hs]. unfold sc, nrm. apply sqrt_le_1_alt. pose proof (Klo F n). lra. }
      split; [exact F1|]. split; [exact E2|]. split; [exact E3|].
      pose proof (minkowski n (dhtf n (va F x)) (fun j => va F (f x) j - dhtf n (va F x) j)) as Mk.
      rewrite (nrm_ext n _ (va F (f x))) in Mk by (intros; ring). lra.
    Qed.

    Lemma combined x y a b : length x = n -> length y = n -> Forall (ffin F) x -> Forall (ffin F) y ->
      sc F n x <= a -> sc F n y <= b -> s <= a -> s <= b -> u <= e -> 32 * e * (s * (a * b)) <= 1 ->
      C * (5 * (INR n * (s * (a * b)))) <= fhi F ->
      let c := f (combine_spectra (f x) (f y)) in
      Forall (ffin F) c /\ forall j, (j < n)%nat -> Rabs (va F c j - 2 * INR n * convf n (va F x) (va F y) j) < INR n.
    Proof.
      intros Lx Ly Fx Fy Sx Sy sa sb ue H Hc. pose proof (r_u _ _ RN) as u0. pose proof flo_small as lo1.
      destruct (numbers e s a b (flo F) e0 (conj u0 ue) s1 sa sb lo1 H) as (e1 & W1 & HE & HS & HO).
      set (W := s * s * (a * b)) in *. assert (ns : INR n = s * s) by (symmetry; apply sqrt_sqrt, pos_INR).
      assert (sW : s * (a * b) <= W) by (unfold W; nra).
      assert (hc : C * (5 * (s * W)) <= fhi F).
      { eapply Rle_trans; [|exact Hc]. right. rewrite ns. unfold W. ring. }
      assert (W2 : 1 <= W) by lra. assert (sW2 : W <= s * W) by nra.
      assert (below : forall v, v <= 5 * (s * W) -> v <= fhi F) by (intros v Hv; eapply Rle_trans; [|exact hc]; nra).
      assert (belowC : forall v, 0 <= v -> v <= 5 * (s * W) -> C * v <= fhi F).
      { intros v Hv Hv2. eapply Rle_trans; [|exact hc]. apply Rmult_le_compat_l; lra. }
      assert (sa0 : 1 <= s * a) by nra. assert (sb0 : 1 <= s * b) by nra. assert (WE : W = (s * a) * (s * b)) by (unfold W; ring).
      assert (sa2 : s * a <= W) by (rewrite WE; clear - sa0 sb0; nra). assert (sb2 : s * b <= W) by (rewrite WE; clear - sa0 sb0; nra).
      destruct (spectrum x a Lx Fx Sx) as (FX & EX & BX & CX); [apply belowC; lra|].
      destruct (spectrum y b Ly Fy Sy) as (FY & EY & BY & CY); [apply belowC; lra|].
      set (X := f x) in *. set (Y := f y) in *. assert (LX : length X = n) by (now apply Lf). assert (LY : length Y = n) by (now apply Lf).
      set (P := (1 + e) * (s * a)) in *. set (Q := (1 + e) * (s * b)) in *.
      assert (P0 : 0 <= P) by (unfold P; apply Rmult_le_pos; lra). assert (Q0 : 0 <= Q) by (unfold Q; apply Rmult_le_pos; lra).
      set (Z := combine_spectra X Y) in *.
      assert (LZ : length Z = n) by (unfold Z, combine_spectra; now rewrite map_length, seq_length).
      set (k3 := (1 + u) * (1 + u) * (1 + u) - 1) in *. assert (k30 : 0 <= k3) by (unfold k3; nra).
      set (lw := 2 * u * (1 + u) * flo F) in *. assert (lw0 : 0 <= lw) by (unfold lw; apply Rmult_le_pos; [nra|lra]).
      (* entries *)
      assert (EN : forall k, (k < n)%nat -> ffin F (nth k Z nzero) /\
        Rabs (va F Z k - comb n (va F X) (va F Y) k) <= 2 * k3 * (P * (Rabs (va F Y k) + Rabs (va F Y (neg_idx n k)))) + lw).
      { intros k Hk. assert (Hk' : (neg_idx n k < n)%nat) by (now apply neg_idx_lt).
        assert (EZ : nth k Z nzero = (nth k X nzero *! (nth k Y nzero +! nth (neg_idx n k) Y nzero)) +! (nth (neg_idx n k) X nzero *! (nth k Y nzero -! nth (neg_idx n k) Y nzero))).
        { unfold Z, combine_spectra. rewrite LX. rewrite nth_map_seq by auto. reflexivity. }
        pose proof (entry_nrm n (va F X) k Hk) as X1. pose proof (entry_nrm n (va F X) _ Hk') as X2.
        pose proof (entry_nrm n (va F Y) k Hk) as Y1. pose proof (entry_nrm n (va F Y) _ Hk') as Y2.
        rewrite (va_nth F N Z k) by lia. unfold comb.
        rewrite (va_nth F N X k), (va_nth F N X (neg_idx n k)), (va_nth F N Y k), (va_nth F N Y (neg_idx n k)) in * by lia.
        rewrite EZ. set (M := Rabs (fval F (nth k Y nzero)) + Rabs (fval F (nth (neg_idx n k) Y nzero))).
        assert (M0 : 0 <= M <= 2 * Q) by (unfold M; pose proof (Rabs_pos (fval F (nth k Y nzero))); pose proof (Rabs_pos (fval F (nth (neg_idx n k) Y nzero))); lra).
        assert (PM : 0 <= P * M <= P * (2 * Q)) by (split; [apply Rmult_le_pos; lra|apply Rmult_le_compat_l; lra]).
        assert (PQ : 2 * ((1 + u) * (1 + u) * (P * M) + u * flo F) <= 5 * W).
        { eapply Rle_trans; [|exact HO]. apply Rmult_le_compat_l; [lra|]. apply Rplus_le_compat_r. apply Rmult_le_compat_l; [nra|]. apply PM. }
        apply (entry_round (nth k X nzero) (nth (neg_idx n k) X nzero) (nth k Y nzero) (nth (neg_idx n k) Y nzero) P M);
          try (apply fin_nth; auto; lia); try lra; unfold M; try lra.
        - fold M. apply below. assert (Q <= 33 / 32 * (s * b)) by (unfold Q; apply Rmult_le_compat_r; nra). lra.
        - fold M. apply below. assert (0 <= u * flo F) by (apply Rmult_le_pos; lra). assert (0 <= (1 + u) * (P * M)) by (apply Rmult_le_pos; lra). nra.
        - fold M. apply below. lra. }
      assert (FZ : Forall (ffin F) Z) by (apply (fin_all F N Z n LZ); intros j Hj; apply EN, Hj).
      assert (D1 : nrm n (fun k => va F Z k - comb n (va F X) (va F Y) k) <= 4 * k3 * (P * Q) + lw * s).
      { apply (Rle_trans _ (nrm n (fun k => 2 * k3 * P * (Rabs (va F Y k) + Rabs (va F Y (neg_idx n k))) + lw))).
        - apply nrm_le. intros k Hk. eapply Rle_trans; [apply EN, Hk|]. right. ring.
        - eapply Rle_trans; [apply minkowski|]. apply Rplus_le_compat.
          + assert (kp : 0 <= 2 * k3 * P) by (apply Rmult_le_pos; lra). rewrite nrm_scal by exact kp. pose proof (nrm_pair n (va F Y)) as NP.
            apply (Rle_trans _ (2 * k3 * P * (2 * Q))); [|right; ring]. apply Rmult_le_compat_l; lra.
          + right. unfold nrm, ss. rewrite rsum_const, sqrt_mult by (apply pos_INR || apply sq0). rewrite sqrt_square by exact lw0. ring. }
      set (x0 := dhtf n (va F x)) in *. set (y0 := dhtf n (va F y)) in *.
      assert (D2 : nrm n (fun k => comb n (va F X) (va F Y) k - comb n x0 y0 k) <= 4 * ((e * (s * a)) * Q) + 4 * ((s * a) * (e * (s * b)))).
      { rewrite (nrm_ext n _ (fun k => comb n (fun j => va F X j - x0 j) (va F Y) k + comb n x0 (fun j => va F Y j - y0 j) k)) by (intros; unfold comb; ring).
        eapply Rle_trans; [apply minkowski|]. apply Rplus_le_compat; (eapply Rle_trans; [apply comb_nrm|]); apply Rmult_le_compat_l; try lra;
          apply Rmult_le_compat; auto using nrm0. }
      assert (D : nrm n (fun k => va F Z k - comb n x0 y0 k) <= 22 * e * W).
      { rewrite (nrm_ext n _ (fun k => (va F Z k - comb n (va F X) (va F Y) k) + (comb n (va F X) (va F Y) k - comb n x0 y0 k))) by (intros; ring).
        eapply Rle_trans; [apply minkowski|]. eapply Rle_trans; [|exact HE]. lra. }
      assert (BZ : sc F n Z <= 48 / 10 * W).
      { assert (B0 : nrm n (comb n x0 y0) <= 4 * W).
        { eapply Rle_trans; [apply comb_nrm|]. apply Rmult_le_compat_l; [lra|]. apply (Rle_trans _ ((s * a) * (s * b))); [apply Rmult_le_compat; auto using nrm0|]. right. unfold W. ring. }
        assert (B1 : nrm n (va F Z) <= 4 * W + (4 * k3 * (P * Q) + lw * s + (4 * ((e * (s * a)) * Q) + 4 * ((s * a) * (e * (s * b)))))).
        { pose proof (minkowski n (comb n x0 y0) (fun k => (va F Z k - comb n (va F X) (va F Y) k) + (comb n (va F X) (va F Y) k - comb n x0 y0 k))) as M1.
          rewrite (nrm_ext n _ (va F Z)) in M1 by (intros; ring).
          pose proof (minkowski n (fun k => va F Z k - comb n (va F X) (va F Y) k) (fun k => comb n (va F X) (va F Y) k - comb n x0 y0 k)) as M2. lra. }
        assert (B2 : sc F n Z <= nrm n (va F Z) + s * flo F).
        { pose proof (nrm0 n (va F Z)) as z0. assert (sl : 0 <= s * flo F) by (apply Rmult_le_pos; lra).
          unfold sc. apply sqrt_le_of; [lra|]. rewrite <- nrm_sq.
          replace (INR n * (flo F * flo F)) with ((s * flo F) * (s * flo F)) by (transitivity ((s * s) * (flo F * flo F)); [ring|now rewrite <- ns]).
          assert (0 <= nrm n (va F Z) * (s * flo F)) by (apply Rmult_le_pos; lra). lra. }
        eapply Rle_trans; [exact B2|]. eapply Rle_trans; [|exact HS]. lra. }
      cbv zeta. pose proof (sc0 F n Z) as Z0.
      destruct (Hf Z LZ FZ) as [FC EC].
      { apply belowC; [apply Rmult_le_pos; lra|]. apply (Rle_trans _ (s * (48 / 10 * W))); [apply Rmult_le_compat_l; lra|]. nra. }
      split; [exact FC|]. intros j Hj. set (c := f Z) in *.
      assert (K : nrm n (fun j => va F c j - 2 * INR n * convf n (va F x) (va F y) j) <= 268 / 10 * e * (s * W)).
      { rewrite (nrm_ext n _ (fun j => (va F c j - dhtf n (va F Z) j) + dhtf n (fun k => va F Z k - comb n x0 y0 k) j)).
        2:{ intros i Hi. rewrite dhtf_sub.
            rewrite (dhtf_ext n (comb n x0 y0) (fun k => 2 * dhtf n (convf n (va F x) (va F y)) k + 0 * dhtf n (convf n (va F x) (va F y)) k)).
            - rewrite dhtf_lin, dhtf_twice by auto. ring.
            - intros k Hk. unfold x0, y0. rewrite comb_conv by auto. ring. }
        eapply Rle_trans; [apply minkowski|]. rewrite nrm_dhtf.
        assert (K1 : (1 + e - 1) * (s * sc F n Z) <= e * (s * (48 / 10 * W))).
        { replace (1 + e - 1) with e by ring. apply Rmult_le_compat_l; auto. apply Rmult_le_compat_l; lra. }
        assert (K2 : s * nrm n (fun k => va F Z k - comb n x0 y0 k) <= s * (22 * e * W)) by (apply Rmult_le_compat_l; lra).
        lra. }
      eapply Rle_lt_trans; [apply (entry_nrm n (fun j => va F c j - 2 * INR n * convf n (va F x) (va F y) j) j Hj)|].
      eapply Rle_lt_trans; [exact K|]. apply (Rlt_le_trans _ (s * s)); [|right; now rewrite <- ns].
      replace (268 / 10 * e * (s * W)) with (268 / 320 * (32 * e * (s * (a * b))) * (s * s)) by (unfold W; field).
      assert (ss1 : 1 <= s * s) by nra. clear - ss1 H. nra.
    Qed.
  End Spectra.

  (** ** integers *)
  Lemma ints_va x zx A : Forall2 (fun v z => ffin F v /\ fval F v = IZR z /\ Rabs (IZR z) <= A) x zx ->
    length zx = length x /\ Forall (ffin F) x /\ Forall (fun v => Rabs (fval F v) <= A) x /\ forall j, va F x j = IZR (nth j zx 0%Z).
  Proof.
    intros H. induction H as [|v z x zx (Fv & Ev & Bv) H (L & Fx & Bx & E)].
    - repeat (split; [constructor|]). intros [|j]; reflexivity.
    - split; [simpl; congruence|]. split; [constructor; auto|]. split; [constructor; auto; now rewrite Ev|].
      intros [|j]; [exact Ev|]. exact (E j).
  Qed.
  Lemma rsum_IZR n (g : nat -> Z) : rsum n (fun j => IZR (g j)) = IZR (fold_right Z.add 0%Z (map g (seq 0 n))).
  Proof.
    enough (forall k, rsum n (fun j => IZR (g (k + j)%nat)) = IZR (fold_right Z.add 0%Z (map g (seq k n)))) as E by exact (E 0%nat).
    induction n as [|n IH]; intros k; [reflexivity|]. rewrite rsum_S_l. cbn [seq map fold_right]. rewrite plus_IZR, <- IH, Nat.add_0_r.
    f_equal. apply rsum_ext. intros j _. now rewrite Nat.add_succ_r.
  Qed.
  Lemma zconv_nth zx zy n k : length zx = n -> (k < n)%nat ->
    IZR (nth k (zconv zx zy) 0%Z) = convf n (fun j => IZR (nth j zx 0%Z)) (fun j => IZR (nth j zy 0%Z)) k.
  Proof.
    intros L H. unfold zconv. rewrite L, nth_map_seq by auto. rewrite <- rsum_IZR. unfold convf. apply rsum_ext. intros j Hj. now rewrite mult_IZR.
  Qed.

  Lemma convolve m t n eps C A B : close F N m t n eps C -> (0 < n)%nat -> u <= eps -> 0 <= A -> 0 <= B ->
    32 * eps * (INR n * sqrt (INR n) * ((A + 1) * (B + 1))) <= 1 ->
    C * (5 * (INR n * (INR n * sqrt (INR n) * ((A + 1) * (B + 1))))) <= fhi F -> convolves F N m t n A B.
  Proof.
    intros (d & E & L & R) Hn ue A0 B0 H Hc. destruct (rms_elim F _ _ _ R) as (r1 & C1 & f & O & Hf). rewrite L in Hf.
    pose proof (sqrt1 n Hn) as s1. set (s := sqrt (INR n)) in *.
    assert (ns : s * s = INR n) by (apply sqrt_sqrt, pos_INR).
    exists d, f. split; [exact E|]. split; [exact L|]. split; [exact (proj1 (transforms_ok _ _) O)|]. intros x y zx zy Lx Ly Hx Hy.
    assert (Lf : forall v, length v = n -> length (f v) = n) by (intros v Lv; rewrite <- L in *; now apply (ok_len _ _ O)).
    destruct (ints_va _ _ _ Hx) as (Lzx & Fx & Bx & Vx). destruct (ints_va _ _ _ Hy) as (Lzy & Fy & By & Vy).
    pose proof (scale_bound F N RN x A A0 Bx) as Sx. pose proof (scale_bound F N RN y B B0 By) as Sy.
    rewrite scale_sc, Lx in Sx. rewrite scale_sc, Ly in Sy. fold s in Sx, Sy.
    destruct (combined n f eps C ltac:(lra) C1 Hn Lf Hf x y (s * (A + 1)) (s * (B + 1)) Lx Ly Fx Fy Sx Sy) as [FC EC]; auto; fold s.
    - nra.
    - nra.
    - eapply Rle_trans; [|exact H]. right. rewrite <- ns at 1. ring.
    - eapply Rle_trans; [|exact Hc]. right. f_equal. f_equal. f_equal. rewrite <- ns at 1. ring.
    - cbv zeta. split; [exact FC|]. set (c := f (combine_spectra (f x) (f y))) in *.
      assert (Lc : length c = n) by (apply Lf; unfold combine_spectra; rewrite map_length, seq_length; now apply Lf).
      apply (nth_ext _ _ (nearest (fval F nzero / (2 * INR n))) 0%Z); [unfold zconv; rewrite !map_length, seq_length; lia|].
      rewrite map_length, Lc. intros j Hj. rewrite (map_nth (fun v => nearest (fval F v / (2 * INR n)))). apply nearest_eq.
      specialize (EC j Hj). rewrite (va_nth F N c j) in EC by lia. rewrite (zconv_nth zx zy n j) by lia.
      replace (convf n (va F x) (va F y) j) with (convf n (fun i => IZR (nth i zx 0%Z)) (fun i => IZR (nth i zy 0%Z)) j) in EC
        by (unfold convf; apply rsum_ext; intros i Hi; now rewrite Vx, Vy).
      set (q := convf n _ _ j) in *. assert (n1 : 1 <= INR n) by (now apply INR1).
      replace (fval F (nth j c nzero) / (2 * INR n) - q) with (/ (2 * INR n) * (fval F (nth j c nzero) - 2 * INR n * q)) by (field; lra).
      rewrite Rabs_mult, Rabs_pos_eq by (left; apply Rinv_0_lt_compat; lra).
      apply (Rmult_lt_reg_l (2 * INR n)); [lra|]. rewrite <- Rmult_assoc, Rinv_r, Rmult_1_l by lra. lra.
  Qed.
End Any.

Lemma convolve_proof T (F : fmt T) (N : Num T) : rounded F N -> forall m t d eps C A B, @build T N m t = Ok d -> rms_close F d (1 + eps) C ->
  (0 < dht_len d)%nat -> fu F <= eps -> 0 <= A -> 0 <= B -> let n := INR (dht_len d) in
  32 * eps * (n * sqrt n * ((A + 1) * (B + 1))) <= 1 -> C * (5 * (n * (n * sqrt n * ((A + 1) * (B + 1))))) <= fhi F ->
  convolves F N m t (dht_len d) A B.
Proof. intros RN m t d eps C A B E R. apply (convolve F N RN). exists d. auto. Qed.

(** ** powers of two and primes *)
Lemma convolve_below {T} (F : fmt T) (N : Num T) (RN : rounded F N) m t n eps C A B : close F N m t n eps C -> 0 <= A -> 0 <= B -> (0 < n)%nat ->
  fu F <= eps -> 1 <= C <= 64 -> bpow radix2 (-45) <= eps -> 32 * eps * (INR n * sqrt (INR n) * ((A + 1) * (B + 1))) <= 1 ->
  bpow radix2 120 <= fhi F -> convolves F N m t n A B.
Proof.
  intros K A0 B0 Hn ue HC He H Hf. apply (convolve F N RN m t n eps C A B K Hn ue A0 B0 H).
  assert (N1 : 1 <= INR n) by (apply (le_INR 1); lia).
  assert (s1 : 1 <= sqrt (INR n)) by (rewrite <- sqrt_1; apply sqrt_le_1_alt; exact N1).
  assert (ab : 1 <= (A + 1) * (B + 1)) by nra.
  assert (ns : INR n <= INR n * sqrt (INR n)) by nra.
  set (S := INR n * sqrt (INR n) * ((A + 1) * (B + 1))) in *. assert (S1 : INR n <= S) by (unfold S; nra).
  change (bpow radix2 (-45)) with (/ 35184372088832) in He.
  assert (S2 : S <= 35184372088832) by nra.
  apply (Rle_trans _ (64 * (8 * (bpow radix2 45 * bpow radix2 45)))).
  - change (bpow radix2 45) with 35184372088832. assert (P : 0 <= INR n * S <= 35184372088832 * 35184372088832) by (split; [nra|apply Rmult_le_compat; lra]).
    apply Rmult_le_compat; lra.
  - apply (Rle_trans _ (bpow radix2 120)); [|exact Hf]. rewrite <- bpow_plus. replace 64 with (bpow radix2 6) by (simpl; lra). replace 8 with (bpow radix2 3) by (simpl; lra).
    rewrite <- !bpow_plus. apply bpow_le. lia.
Qed.
Lemma conv_cond a e S : 32 * a * S <= bpow radix2 e -> 32 * (a * bpow radix2 (- e)) * S <= 1.
Proof.
  intros H. pose proof (bpow_gt_0 radix2 (- e)) as P.
  assert (Q : bpow radix2 (- e) * (32 * a * S) <= bpow radix2 (- e) * bpow radix2 e) by (apply Rmult_le_compat_l; lra).
  rewrite <- bpow_plus, Z.add_opp_diag_l in Q. simpl in Q. nra.
Qed.
Lemma u32 a e : 1 <= a -> (e <= 24)%Z -> fu F32 <= a * bpow radix2 (- e).
Proof.
  intros A E. apply (Rle_trans _ (bpow radix2 (- e))); [apply (bpow_le radix2 (-24)); lia|]. pose proof (bpow_gt_0 radix2 (- e)). nra.
Qed.
Lemma u64 a e : 1 <= a -> (e <= 53)%Z -> fu F64 <= a * bpow radix2 (- e).
Proof.
  intros A E. apply (Rle_trans _ (bpow radix2 (- e))); [apply (bpow_le radix2 (-53)); lia|]. pose proof (bpow_gt_0 radix2 (- e)). nra.
Qed.

Lemma C76_fours32_proof L m k A B : accurate L -> usz (8 * (16 * 4 ^ k)) -> 0 <= A -> 0 <= B -> let n := INR (16 * 4 ^ k) in
  32 * (INR k + 1) * (n * sqrt n * ((A + 1) * (B + 1))) <= bpow radix2 18 -> convolves F32 (Num_f32 L) m (fours k) (16 * 4 ^ k) A B.
Proof.
  intros AL U A0 B0 n H. pose proof (pos_INR k).
  apply (convolve_below F32 _ (ok32 L AL) m _ _ _ _ A B (fours_close32 L m k AL U)); auto using big32; try lra.
  - apply pow_pos16; lia.
  - apply (u32 _ 18); [lra|lia].
  - apply (eps_big _ 18); [lra|lia].
  - apply (conv_cond _ 18), H.
Qed.
Lemma C76_fours64_proof L m k A B : accurate L -> usz (8 * (16 * 4 ^ k)) -> 0 <= A -> 0 <= B -> let n := INR (16 * 4 ^ k) in
  32 * (INR k + 1) * (n * sqrt n * ((A + 1) * (B + 1))) <= bpow radix2 42 -> convolves F64 (Num_f64 L) m (fours k) (16 * 4 ^ k) A B.
Proof.
  intros AL U A0 B0 n H. pose proof (pos_INR k).
  apply (convolve_below F64 _ (ok64 L AL) m _ _ _ _ A B (fours_close64 L m k AL U)); auto using big64; try lra.
  - apply pow_pos16; lia.
  - apply (u64 _ 42); [lra|lia].
  - apply (eps_big _ 42); [lra|lia].
  - apply (conv_cond _ 42), H.
Qed.
Lemma C76_splits32_proof L m k A B : accurate L -> usz (8 * (16 * 2 ^ k)) -> 0 <= A -> 0 <= B -> let n := INR (16 * 2 ^ k) in
  32 * (INR k + 4) * (n * sqrt n * ((A + 1) * (B + 1))) <= bpow radix2 20 -> convolves F32 (Num_f32 L) m (snd (splits k)) (16 * 2 ^ k) A B.
Proof.
  intros AL U A0 B0 n H. pose proof (pos_INR k).
  apply (convolve_below F32 _ (ok32 L AL) m _ _ _ _ A B (splits_close32 L m k AL U)); auto using big32; try lra.
  - apply pow_pos16; lia.
  - apply (u32 _ 20); [lra|lia].
  - apply (eps_big _ 20); [lra|lia].
  - apply (conv_cond _ 20), H.
Qed.
Lemma C76_splits64_proof L m k A B : accurate L -> usz (8 * (16 * 2 ^ k)) -> 0 <= A -> 0 <= B -> let n := INR (16 * 2 ^ k) in
  32 * (INR k + 3) * (n * sqrt n * ((A + 1) * (B + 1))) <= bpow radix2 44 -> convolves F64 (Num_f64 L) m (snd (splits k)) (16 * 2 ^ k) A B.
Proof.
  intros AL U A0 B0 n H. pose proof (pos_INR k).
  apply (convolve_below F64 _ (ok64 L AL) m _ _ _ _ A B (splits_close64 L m k AL U)); auto using big64; try lra.
  - apply pow_pos16; lia.
  - apply (u64 _ 44); [lra|lia].
  - apply (eps_big _ 44); [lra|lia].
  - apply (conv_cond _ 44), H.
Qed.
Lemma C76_primes64_proof k A B L m : accurate L -> nprime (N.of_nat (16 * 2 ^ k + 1)) -> (N.of_nat (16 * 2 ^ k + 1) <= 2 ^ 32)%N -> 0 <= A -> 0 <= B ->
  let n := INR (16 * 2 ^ k + 1) in
  384 * (INR k + 4) * (n * n * ((A + 1) * (B + 1))) <= bpow radix2 44 -> convolves F64 (Num_f64 L) m (Rader (snd (splits k))) (16 * 2 ^ k + 1) A B.
Proof.
  intros AL P P32 A0 B0 n H. pose proof (pos_INR k). assert (S1 : 1 <= sqrt n) by (apply sqrt1; lia). assert (big : 1 <= 12 * sqrt n * (INR k + 4)) by (revert S1; generalize (sqrt n); intros q S1; nra).
  apply (convolve_below F64 _ (ok64 L AL) m _ _ _ _ A B (primes_close64 L m k AL P P32)); auto using big64; try lra; try lia; fold n.
  - rewrite <- Rmult_assoc. apply (u64 _ 44); [exact big|lia].
  - rewrite <- Rmult_assoc. apply (eps_big _ 44); [exact big|lia].
  - rewrite <- (Rmult_assoc (12 * sqrt n)). apply (conv_cond _ 44).
    replace (32 * (12 * sqrt n * (INR k + 4)) * (n * sqrt n * ((A + 1) * (B + 1)))) with (384 * (INR k + 4) * (n * (sqrt n * sqrt n) * ((A + 1) * (B + 1)))) by ring.
    rewrite sqrt_sqrt by apply pos_INR. exact H.
Qed.

Lemma C76_case_proof L m : accurate L ->
  convolves F32 (Num_f32 L) m Fly16 16 10 10 /\ convolves F64 (Num_f64 L) m (snd (splits 6)) 1024 1023 1023 /\
  convolves F64 (Num_f64 L) m (Rader (snd (splits 4))) 257 255 255.
Proof.
  intros AL. split; [|split].
  - assert (U : usz (8 * (16 * 2 ^ 0))) by reflexivity. pose proof (C76_splits32_proof L m 0 10 10 AL U ltac:(lra) ltac:(lra)) as H.
    change (16 * 2 ^ 0)%nat with 16%nat in *. cbv zeta in H. apply H.
    replace (INR 16) with (4 * 4) by (simpl; lra). rewrite sqrt_square by lra. simpl. lra.
  - assert (U : usz (8 * (16 * 2 ^ 6))) by reflexivity. pose proof (C76_splits64_proof L m 6 1023 1023 AL U ltac:(lra) ltac:(lra)) as H.
    change (16 * 2 ^ 6)%nat with 1024%nat in *. cbv zeta in H. apply H.
    replace (INR 1024) with (32 * 32) by (simpl; lra). rewrite sqrt_square by lra. simpl. lra.
  - apply (C76_primes64_proof 4 255 255 L m AL).
    + apply miller_rabin_ok. vm_compute. reflexivity.
    + discriminate.
    + lra.
    + lra.
    + change (16 * 2 ^ 4 + 1)%nat with 257%nat. replace (INR 257) with 257 by (simpl; lra). simpl. lra.
Qed.
