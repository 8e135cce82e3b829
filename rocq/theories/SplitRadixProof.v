(** * SplitRadix meets the contract, for every number type *)
From Verif Require Export MixedRadixProof SplitRadix.

Section SplitPure.
  Context {T : Type} {NT : Num T}.
  Variable q : nat.

  (** the butterflied input, as four rows of [q]: evens (two rows), first and third quarters *)
  Definition split_odd1 (a b : nat -> T) (c : nat) : T :=
    if c =? 0 then a 0 +! b 0
    else if 2 * c <? q then
      (a c +! a (q - c)) *! re (compute_dft_twiddle_inverse (c * 1) (q * 4)) -!
      (b c -! b (q - c)) *! im (compute_dft_twiddle_inverse (c * 1) (q * 4))
    else
      (a (q - c) +! a c) *! im (compute_dft_twiddle_inverse ((q - c) * 1) (q * 4)) +!
      (b (q - c) -! b c) *! re (compute_dft_twiddle_inverse ((q - c) * 1) (q * 4)).
  Definition split_odd3 (a b : nat -> T) (c : nat) : T :=
    if c =? 0 then a 0 -! b 0
    else if 2 * c <? q then
      (a c -! a (q - c)) *! re (compute_dft_twiddle_inverse (c * 3) (q * 4)) +!
      (b c +! b (q - c)) *! im (compute_dft_twiddle_inverse (c * 3) (q * 4))
    else
      (a (q - c) -! a c) *! im (compute_dft_twiddle_inverse ((q - c) * 3) (q * 4)) -!
      (b (q - c) +! b c) *! re (compute_dft_twiddle_inverse ((q - c) * 3) (q * 4)).

  Definition split_evens (x : list T) : list T :=
    map (fun i => nth i x nzero +! nth (q * 2 + i) x nzero) (seq 0 (q * 2)).
  Definition split_diff0 (x : list T) (i : nat) : T := nth i x nzero -! nth (q * 2 + i) x nzero.
  Definition split_diff1 (x : list T) (i : nat) : T := nth (q + i) x nzero -! nth (q * 3 + i) x nzero.
  Definition split_q1 (x : list T) : list T :=
    map (split_odd1 (split_diff0 x) (split_diff1 x)) (seq 0 q).
  Definition split_q3 (x : list T) : list T :=
    map (split_odd3 (split_diff0 x) (split_diff1 x)) (seq 0 q).

  Definition interleave (evens o1 o3 : list T) : list T :=
    tab q 4 (fun i j => match j with
                        | 0 => nth (i * 2) evens nzero
                        | 1 => nth i o1 nzero
                        | 2 => nth (i * 2 + 1) evens nzero
                        | _ => nth i o3 nzero end).
  Definition split_fun (fq fh : list T -> list T) (x : list T) : list T :=
    interleave (fh (split_evens x)) (fq (split_q1 x)) (fq (split_q3 x)).
End SplitPure.

Section SplitApply.
  Context {T : Type} {NT : Num T}.

  Lemma split_twiddles_nth len i j :
    i <= len / 8 -> j < 2 ->
    2 * i + j < length (split_twiddles (T := T) len) /\
    nth (2 * i + j) (split_twiddles len) (Cplx nzero nzero) =
    compute_dft_twiddle_inverse (i * (2 * j + 1)) len.
  Proof.
    intros Hi Hj. unfold split_twiddles. rewrite (flat_map_length_const _ _ 2), seq_length by auto.
    split; [lia|]. replace (2 * i + j) with (i * 2 + j) by lia.
    rewrite (nth_flat_map_const _ _ 2 0) by (rewrite ?seq_length; auto; lia).
    rewrite seq_nth by lia. destruct j as [|[|j]]; [reflexivity|reflexivity|lia].
  Qed.

  Lemma split_apply_ok q (x : list T) :
    0 < q -> length x = q * 4 ->
    split_apply_twiddles (q * 4) (split_twiddles (q * 4)) x =
    Ok (split_evens q x ++ (split_q1 q x ++ split_q3 q x)).
  Proof.
    intros Hq Lx. unfold split_apply_twiddles. cbv zeta.
    replace (q * 4 / 2) with (q * 2) by (replace (q * 4) with (q * 2 * 2) by lia; now rewrite Nat.div_mul).
    replace (q * 4 / 4) with q by (now rewrite Nat.div_mul).
    assert (E8 : q * 4 / 8 = q / 2).
    { replace (q * 4) with (4 * q) by lia. replace 8 with (4 * 2) by lia.
      apply Nat.div_mul_cancel_l; lia. }
    rewrite E8. pose proof (half_lt q) as Hh.
    rewrite split_at_ok by lia. cbn [bind].
    rewrite !split_at_ok by (rewrite ?firstn_length, ?skipn_length; lia). cbn [bind].
    set (h0 := firstn q (firstn (q * 2) x)). set (h1 := skipn q (firstn (q * 2) x)).
    set (q1 := firstn q (skipn (q * 2) x)). set (q3 := skipn q (skipn (q * 2) x)).
    assert (Lh0 : length h0 = q) by (unfold h0; rewrite !firstn_length; lia).
    assert (Lh1 : length h1 = q) by (unfold h1; rewrite skipn_length, firstn_length; lia).
    assert (Lq1 : length q1 = q) by (unfold q1; rewrite firstn_length, skipn_length; lia).
    assert (Lq3 : length q3 = q) by (unfold q3; rewrite !skipn_length; lia).
    set (X i := nth i x nzero).
    assert (N0 : forall i, i < q -> nth i h0 nzero = X i).
    { intros. unfold h0. rewrite !nth_firstn by lia. reflexivity. }
    assert (N1 : forall i, i < q -> nth i h1 nzero = X (q + i)).
    { intros. unfold h1. rewrite nth_skipn, nth_firstn by lia. reflexivity. }
    assert (N2 : forall i, i < q -> nth i q1 nzero = X (q * 2 + i)).
    { intros. unfold q1. rewrite nth_firstn, nth_skipn by lia. reflexivity. }
    assert (N3 : forall i, i < q -> nth i q3 nzero = X (q * 3 + i)).
    { intros. unfold q3. rewrite !nth_skipn. unfold X. f_equal. lia. }
    clearbody h0 h1 q1 q3.
    rewrite !(idx_ok nzero) by lia. cbn [bind]. rewrite !set_ok by lia. cbn [bind].
    rewrite N0, N1, N2, N3 by lia.
    set (a := split_diff0 q x). set (b := split_diff1 q x).
    match goal with |- bind (for_range ?lo ?hi ?body ?s) _ = _ =>
      destruct (for_range_inv (fun i '(h0', h1', q1', q3') =>
        length h0' = q /\ length h1' = q /\ length q1' = q /\ length q3' = q /\
        (forall c, c < q -> nth c h0' nzero = if (c <? i) || (q - c <? i) then X c +! X (q * 2 + c) else X c) /\
        (forall c, c < q -> nth c h1' nzero = if (c <? i) || (q - c <? i) then X (q + c) +! X (q * 3 + c) else X (q + c)) /\
        (forall c, c < q -> nth c q1' nzero = if (c <? i) || (q - c <? i) then split_odd1 q a b c else X (q * 2 + c)) /\
        (forall c, c < q -> nth c q3' nzero = if (c <? i) || (q - c <? i) then split_odd3 q a b c else X (q * 3 + c)))
        lo hi body s) as ([[[h0' h1'] q1'] q3'] & E & L0 & L1 & L2 & L3 & R0 & R1 & R2 & R3) end.
    - lia.
    - rewrite !upd_length.
      assert (Ha : a 0 = X 0 -! X (q * 2 + 0)) by reflexivity.
      assert (Hb : b 0 = X (q + 0) -! X (q * 3 + 0)) by reflexivity.
      repeat split; auto; intros c Hc; (destruct (Nat.eq_dec c 0) as [->|Nc];
        [rewrite nth_upd_eq by lia; simpl (0 <? 1); cbn [orb]; auto
        |rewrite nth_upd_neq by auto;
         destruct (Nat.ltb_spec c 1); [lia|]; destruct (Nat.ltb_spec (q - c) 1); [lia|]; cbn [orb]; auto]).
    - intros i [[[g0 g1] p1] p3] Hi (L0 & L1 & L2 & L3 & R0 & R1 & R2 & R3).
      unfold split_cell.
      destruct (split_twiddles_nth (q * 4) i 0) as (B0 & T0); [lia|lia|].
      destruct (split_twiddles_nth (q * 4) i 1) as (B1 & T1); [lia|lia|].
      rewrite Nat.add_0_r in B0, T0.
      rewrite !(uidx_ok (Cplx nzero nzero)) by auto. rewrite T0, T1. cbn [bind].
      unfold usub. destruct (Nat.leb_spec i q); [|lia]. cbn [bind].
      rewrite !(uidx_ok nzero) by lia. cbn [bind].
      repeat (rewrite uset_ok by (rewrite ?upd_length; lia); cbn [bind]).
      eexists. split; [reflexivity|]. cbv beta iota. rewrite !upd_length.
      assert (Bf : (i <? i) || (q - i <? i) = false).
      { destruct (Nat.ltb_spec i i); [lia|]. destruct (Nat.ltb_spec (q - i) i); [lia|]. reflexivity. }
      assert (Br : (q - i <? i) || (q - (q - i) <? i) = false).
      { destruct (Nat.ltb_spec (q - i) i); [lia|]. destruct (Nat.ltb_spec (q - (q - i)) i); [lia|]. reflexivity. }
      rewrite !R0, !R1, !R2, !R3 by lia. rewrite !Bf, !Br.
      assert (Hd0 : forall c, X c -! X (q * 2 + c) = a c) by reflexivity.
      assert (Hd1 : forall c, X (q + c) -! X (q * 3 + c) = b c) by reflexivity.
      rewrite !Hd0, !Hd1.
      assert (Bn : forall c, c < q -> c <> i -> c <> q - i ->
                   (c <? 1 + i) || (q - c <? 1 + i) = (c <? i) || (q - c <? i)).
      { intros c Hc N N'.
        destruct (Nat.ltb_spec c (1 + i)), (Nat.ltb_spec c i), (Nat.ltb_spec (q - c) (1 + i)),
          (Nat.ltb_spec (q - c) i); auto; lia. }
      assert (Bt : forall c, c = i \/ c = q - i -> (c <? 1 + i) || (q - c <? 1 + i) = true).
      { intros c Hc. destruct (Nat.ltb_spec c (1 + i)), (Nat.ltb_spec (q - c) (1 + i)); auto; lia. }
      repeat split; auto; intros c Hc;
        (destruct (Nat.eq_dec c (q - i)) as [Er|Nr];
         [rewrite Bt by auto|destruct (Nat.eq_dec c i) as [Ef|Nf]; [rewrite Bt by auto|]]).
      + rewrite Er, nth_upd_eq by (rewrite upd_length; lia). reflexivity.
      + rewrite nth_upd_neq by auto. rewrite Ef, nth_upd_eq by lia. reflexivity.
      + rewrite !nth_upd_neq by auto. rewrite R0, Bn by auto. reflexivity.
      + rewrite Er, nth_upd_eq by (rewrite upd_length; lia). reflexivity.
      + rewrite nth_upd_neq by auto. rewrite Ef, nth_upd_eq by lia. reflexivity.
      + rewrite !nth_upd_neq by auto. rewrite R1, Bn by auto. reflexivity.
      + rewrite Er, nth_upd_eq by (rewrite upd_length; lia). unfold split_odd1.
        destruct (Nat.eqb_spec (q - i) 0); [lia|]. destruct (Nat.ltb_spec (2 * (q - i)) q); [lia|].
        replace (q - (q - i)) with i by lia. reflexivity.
      + rewrite nth_upd_neq by auto. rewrite Ef, nth_upd_eq by lia. unfold split_odd1.
        destruct (Nat.eqb_spec i 0); [lia|]. destruct (Nat.ltb_spec (2 * i) q); [|lia]. reflexivity.
      + rewrite !nth_upd_neq by auto. rewrite R2, Bn by auto. reflexivity.
      + rewrite Er, nth_upd_eq by (rewrite upd_length; lia). unfold split_odd3.
        destruct (Nat.eqb_spec (q - i) 0); [lia|]. destruct (Nat.ltb_spec (2 * (q - i)) q); [lia|].
        replace (q - (q - i)) with i by lia. reflexivity.
      + rewrite nth_upd_neq by auto. rewrite Ef, nth_upd_eq by lia. unfold split_odd3.
        destruct (Nat.eqb_spec i 0); [lia|]. destruct (Nat.ltb_spec (2 * i) q); [|lia]. reflexivity.
      + rewrite !nth_upd_neq by auto. rewrite R3, Bn by auto. reflexivity.
    - rewrite E. cbn [bind]. f_equal.
      assert (Bt : forall c, c < q -> (c <? q / 2 + 1) || (q - c <? q / 2 + 1) = true).
      { intros c Hc. destruct (Nat.ltb_spec c (q / 2 + 1)), (Nat.ltb_spec (q - c) (q / 2 + 1)); auto; lia. }
      f_equal; [|f_equal].
      + apply (nth_list_ext nzero).
        { unfold split_evens. rewrite app_length, map_length, seq_length. lia. }
        intros i Hi. rewrite app_length in Hi. unfold split_evens. rewrite nth_map_seq by lia. simpl plus.
        destruct (Nat.lt_ge_cases i q).
        * rewrite app_nth1 by lia. rewrite R0, Bt by auto. reflexivity.
        * rewrite app_nth2 by lia. rewrite L0. rewrite R1, Bt by lia.
          unfold X. f_equal; f_equal; lia.
      + apply (nth_list_ext nzero). { unfold split_q1. rewrite map_length, seq_length. lia. }
        intros i Hi. unfold split_q1. rewrite nth_map_seq by lia. rewrite R2, Bt by lia. reflexivity.
      + apply (nth_list_ext nzero). { unfold split_q3. rewrite map_length, seq_length. lia. }
        intros i Hi. unfold split_q3. rewrite nth_map_seq by lia. rewrite R3, Bt by lia. reflexivity.
  Qed.

  Lemma interleave_nth q (e o1 o3 : list T) i :
    i < q ->
    nth (4 * i + 0) (interleave q e o1 o3) nzero = nth (i * 2) e nzero /\
    nth (4 * i + 1) (interleave q e o1 o3) nzero = nth i o1 nzero /\
    nth (4 * i + 2) (interleave q e o1 o3) nzero = nth (i * 2 + 1) e nzero /\
    nth (4 * i + 3) (interleave q e o1 o3) nzero = nth i o3 nzero.
  Proof.
    intros Hi. unfold interleave. replace (4 * i) with (i * 4) by lia.
    rewrite !nth_tab by lia. auto.
  Qed.

  Lemma quad_cases q p : p < q * 4 -> exists i j, i < q /\ j < 4 /\ p = 4 * i + j.
  Proof.
    intros. destruct (rc_split q 4 p) as (i & j & ? & ? & ->); auto. exists i, j. repeat split; auto. lia.
  Qed.

  Lemma split_gather_ok q (e o1 o3 o : list T) :
    0 < q -> length e = q * 2 -> length o1 = q -> length o3 = q -> length o = q * 4 ->
    for_range 0 (length o / 4) (fun i output =>
        v <- uidx e (i * 2) ;; output <- uset output (4 * i + 0) v ;;
        v <- uidx o1 i ;; output <- uset output (4 * i + 1) v ;;
        v <- uidx e (i * 2 + 1) ;; output <- uset output (4 * i + 2) v ;;
        v <- uidx o3 i ;; uset output (4 * i + 3) v) o = Ok (interleave q e o1 o3).
  Proof.
    intros Hq Le L1 L3 Lo. rewrite Lo, Nat.div_mul by lia.
    match goal with |- for_range ?lo ?hi ?body ?s = _ =>
      destruct (for_range_inv (fun i out => length out = q * 4 /\
        forall p, p < 4 * i -> nth p out nzero = nth p (interleave q e o1 o3) nzero) lo hi body s)
        as (o' & E & L & R) end.
    - lia.
    - split; auto. lia.
    - intros i out Hi (L & R).
      rewrite !(uidx_ok nzero) by lia. cbn [bind].
      repeat (rewrite uset_ok by (rewrite ?upd_length; lia); cbn [bind]).
      eexists. split; [reflexivity|]. rewrite !upd_length. split; auto.
      destruct (interleave_nth q e o1 o3 i) as (I0 & I1 & I2 & I3); [lia|].
      intros p Hp.
      destruct (Nat.eq_dec p (4 * i + 3)) as [->|]; [now rewrite nth_upd_eq by (rewrite ?upd_length; lia)|].
      rewrite nth_upd_neq by auto.
      destruct (Nat.eq_dec p (4 * i + 2)) as [->|]; [now rewrite nth_upd_eq by (rewrite ?upd_length; lia)|].
      rewrite nth_upd_neq by auto.
      destruct (Nat.eq_dec p (4 * i + 1)) as [->|]; [now rewrite nth_upd_eq by (rewrite ?upd_length; lia)|].
      rewrite nth_upd_neq by auto.
      destruct (Nat.eq_dec p (4 * i + 0)) as [->|]; [now rewrite nth_upd_eq by (rewrite ?upd_length; lia)|].
      rewrite nth_upd_neq by auto.
      apply R. lia.
    - rewrite E. f_equal. apply (nth_list_ext nzero).
      + unfold interleave. now rewrite tab_length.
      + intros p Hp. apply R. lia.
  Qed.
End SplitApply.

Section SplitContract.
  Context {T : Type} {NT : Num T}.

  Lemma split_scatter_ok q (e odds o1 o3 : list T) :
    0 < q -> length e = q * 2 -> length odds = q * 2 -> length o1 = q -> length o3 = q ->
    for_each (rev (seq 0 q)) (fun i buffer =>
        v <- uidx buffer (i * 2) ;; buffer <- uset buffer (4 * i + 0) v ;;
        v <- uidx buffer (i * 2 + 1) ;; buffer <- uset buffer (4 * i + 2) v ;;
        v <- uidx o1 i ;; buffer <- uset buffer (4 * i + 1) v ;;
        v <- uidx o3 i ;; uset buffer (4 * i + 3) v) (e ++ odds) = Ok (interleave q e o1 o3).
  Proof.
    intros Hq Le Lod L1 L3.
    match goal with |- for_each ?l ?body ?s = _ =>
      destruct (for_each_inv (fun t b => length b = q * 4 /\
        (forall p, p < 4 * (q - t) -> nth p b nzero = nth p (e ++ odds) nzero) /\
        (forall p, 4 * (q - t) <= p < q * 4 -> nth p b nzero = nth p (interleave q e o1 o3) nzero)) l body s 0)
        as (o' & E & L & _ & R) end.
    - rewrite app_length. split; [lia|]. split; auto. intros; lia.
    - intros t b Ht (L & R1 & R2). rewrite rev_length, seq_length in Ht.
      rewrite nth_rev', seq_length, seq_nth by (rewrite ?seq_length; lia).
      set (i := 0 + (q - 1 - t)). assert (Hi : i = q - 1 - t) by reflexivity. clearbody i.
      rewrite (uidx_ok nzero) by lia. cbn [bind]. rewrite uset_ok by lia. cbn [bind].
      rewrite (uidx_ok nzero) by (rewrite upd_length; lia). cbn [bind].
      rewrite (nth_upd_neq b (4 * i + 0) (i * 2 + 1)) by lia.
      rewrite uset_ok by (rewrite ?upd_length; lia). cbn [bind].
      rewrite (uidx_ok nzero) by lia. cbn [bind].
      rewrite uset_ok by (rewrite ?upd_length; lia). cbn [bind].
      rewrite (uidx_ok nzero) by lia. cbn [bind].
      rewrite uset_ok by (rewrite ?upd_length; lia).
      eexists. split; [reflexivity|]. rewrite !upd_length. split; auto.
      rewrite !R1 by lia. rewrite !app_nth1 by lia.
      destruct (interleave_nth q e o1 o3 i) as (I0 & I1 & I2 & I3); [lia|].
      split.
      + intros p Hp. rewrite !nth_upd_neq by lia. apply R1. lia.
      + intros p Hp.
        destruct (Nat.eq_dec p (4 * i + 3)) as [->|]; [now rewrite nth_upd_eq by (rewrite ?upd_length; lia)|].
        rewrite nth_upd_neq by auto.
        destruct (Nat.eq_dec p (4 * i + 1)) as [->|]; [now rewrite nth_upd_eq by (rewrite ?upd_length; lia)|].
        rewrite nth_upd_neq by auto.
        destruct (Nat.eq_dec p (4 * i + 2)) as [->|]; [now rewrite nth_upd_eq by (rewrite ?upd_length; lia)|].
        rewrite nth_upd_neq by auto.
        destruct (Nat.eq_dec p (4 * i + 0)) as [->|]; [now rewrite nth_upd_eq by (rewrite ?upd_length; lia)|].
        rewrite nth_upd_neq by auto. apply R2. lia.
    - rewrite E. f_equal. rewrite rev_length, seq_length in R. apply (nth_list_ext nzero).
      + unfold interleave. now rewrite tab_length.
      + intros p Hp. apply R. lia.
  Qed.

  Variables (dq dh : Dht T) (fq fh : list T -> list T).
  Let q := dht_len dq.
  Hypothesis q_ok : dht_ok dq fq.
  Hypothesis h_ok : dht_ok dh fh.

  Lemma map_chunks_two (f : list T -> list T) n a b :
    0 < n -> length a = n -> length b = n -> map_chunks n f (a ++ b) = f a ++ f b.
  Proof. intros. rewrite map_chunks_cons by auto. now rewrite map_chunks_one. Qed.

  Lemma split_radix_ok :
    dht_len dh = dht_len dq * 2 ->
    dht_inplace_scratch dh <= dht_len dh ->
    dht_inplace_scratch dq <= dht_len dq * 4 ->
    dht_oop_scratch dq = 0 ->
    exists d, split_radix dq dh = Ok d /\ dht_ok d (split_fun q fq fh) /\ dht_strict d /\
      dht_len d = q * 4 /\ dht_inplace_scratch d = q * 2 /\ dht_oop_scratch d = 0.
  Proof.
    intros Hlen F1 F2 F3. unfold split_radix, rassert. fold q in Hlen |- *.
    rewrite Hlen, Nat.eqb_refl. cbn [bind]. eexists. split; [reflexivity|].
    match goal with |- ?A /\ ?B /\ ?C => assert (A /\ B) as [HA HB]; [|exact (conj HA (conj HB (conj eq_refl (conj eq_refl eq_refl))))] end.
    assert (Lfq : forall x, length x = q -> length (fq x) = q) by apply (ok_len _ _ q_ok).
    assert (Lfh : forall x, length x = q * 2 -> length (fh x) = q * 2).
    { intros. rewrite <- Hlen. apply (ok_len _ _ h_ok). now rewrite Hlen. }
    assert (Ev : forall x : list T, length (split_evens q x) = q * 2).
    { intros. unfold split_evens. now rewrite map_length, seq_length. }
    assert (E1 : forall x : list T, length (split_q1 q x) = q).
    { intros. unfold split_q1. now rewrite map_length, seq_length. }
    assert (E3 : forall x : list T, length (split_q3 q x) = q).
    { intros. unfold split_q3. now rewrite map_length, seq_length. }
    apply boilerplate_dht_ok.
    - intros. unfold split_fun, interleave. apply tab_length.
    - intros Hn c scr Lc Ls. assert (Hq : 0 < q) by lia.
      unfold split_inplace. rewrite split_apply_ok by auto. cbn [bind]. cbv zeta.
      replace (q * 4 / 2) with (q * 2) by (replace (q * 4) with (q * 2 * 2) by lia; now rewrite Nat.div_mul).
      replace (q * 4 / 4) with q by (now rewrite Nat.div_mul).
      rewrite split_at_app by auto. cbn [bind].
      destruct (ok_inplace _ _ h_ok ltac:(lia) 1 (split_evens q c) scr) as (s1 & Es1 & Ls1 & _); [lia|rewrite Ev; lia|lia|].
      rewrite Es1. cbn [bind].
      destruct (ok_oop _ _ q_ok Hq 2 (split_q1 q c ++ split_q3 q c) s1 []) as (i' & s' & E & Li & Ls' & _).
      { lia. } { rewrite app_length, E1, E3. fold q. lia. } { rewrite app_length, E1, E3. lia. } { rewrite F3. simpl. lia. }
      rewrite E. cbn [bind]. fold q. rewrite Hlen, (map_chunks_one (q * 2) fh) by (auto; lia).
      rewrite map_chunks_two by auto.
      rewrite split_at_app by auto. cbn [bind].
      rewrite app_length, E1, E3 in Li.
      rewrite (split_scatter_ok q) by (auto; try lia). cbn [bind].
      eexists. split; [reflexivity|]. rewrite app_length, !Lfq by auto. lia.
    - intros Hn i out scr Li Lo Ls. assert (Hq : 0 < q) by lia.
      unfold split_oop. rewrite split_apply_ok by auto. cbn [bind]. cbv zeta.
      replace (q * 4 / 2) with (q * 2) by (replace (q * 4) with (q * 2 * 2) by lia; now rewrite Nat.div_mul).
      replace (q * 4 / 4) with q by (now rewrite Nat.div_mul).
      rewrite split_at_app by auto. cbn [bind].
      destruct (ok_inplace _ _ h_ok ltac:(lia) 1 (split_evens q i) out) as (s1 & Es1 & Ls1 & _); [lia|rewrite Ev; lia|lia|].
      rewrite Es1. cbn [bind].
      destruct (ok_inplace _ _ q_ok Hq 2 (split_q1 q i ++ split_q3 q i) s1) as (s2 & Es2 & Ls2 & _).
      { lia. } { rewrite app_length, E1, E3. fold q. lia. } { fold q in F2. lia. }
      rewrite Es2. cbn [bind]. fold q. rewrite Hlen, (map_chunks_one (q * 2) fh) by (auto; lia).
      rewrite map_chunks_two by auto.
      rewrite split_at_app by auto. cbn [bind].
      rewrite (split_gather_ok q) by (auto; try lia). cbn [bind].
      eexists _, _. split; [reflexivity|]. split; auto.
      rewrite !app_length, Lfh, !Lfq by auto. lia.
  Qed.

  Lemma split_radix_panics : dht_len dh <> dht_len dq * 2 -> split_radix dq dh = Panic.
  Proof.
    intros. unfold split_radix, rassert. destruct (Nat.eqb_spec (dht_len dh) (dht_len dq * 2)); [lia|reflexivity].
  Qed.
End SplitContract.
