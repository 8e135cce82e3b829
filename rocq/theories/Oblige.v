(** * Every algorithm over inner instances that only oblige *)
From Verif Require Import Lemmas Contract NxnInst MixedRadixProof SplitRadixProof Radix4Proof RadersContract TreeProof RootProofs NumTheory Residues MathProofs.
From Verif Require Export TestScratch.
From Coq Require Import Lia NArith.

Section Oblige.
  Context {T : Type} {NT : Num T}.

  Lemma ok_obliging (d : Dht T) f : dht_ok d f -> obliging d.
  Proof.
    intros O P. split.
    - intros b scr (S1 & S2 & S3). set (k := length b / dht_len d).
      assert (L : length b = k * dht_len d) by (pose proof (Nat.div_mod (length b) (dht_len d)); unfold k; lia).
      assert (K : 0 < k) by (destruct k; lia).
      destruct (ok_inplace _ _ O P k b scr K L S3) as (s & E & Ls & _). eexists _, _. split; [exact E|]. split; auto.
      rewrite map_chunks_length with (m := k); auto. apply (ok_len _ _ O).
    - intros i o scr (S0 & S1 & S2 & S3). set (k := length i / dht_len d).
      assert (L : length i = k * dht_len d) by (pose proof (Nat.div_mod (length i) (dht_len d)); unfold k; lia).
      assert (K : 0 < k) by (destruct k; lia).
      destruct (ok_oop _ _ O P k i o scr K L) as (i' & s & E & Li & Ls & _); auto; try lia. eexists _, _, _. split; [exact E|]. split; auto. split; auto.
      rewrite map_chunks_length with (m := k); auto; [lia|]. apply (ok_len _ _ O).
  Qed.

  Lemma nxn_obliging k (d : Dht T) apply applyp : 0 < k -> obliging d ->
    (0 < dht_len d -> dht_inplace_scratch d <= k * dht_len d /\ dht_oop_scratch d = 0) ->
    (0 < dht_len d -> forall x, length x = k * dht_len d -> apply x = Ok (applyp x)) -> (forall x, length (applyp x) = k * dht_len d) ->
    obliging (nxn k d apply).
  Proof.
    intros K O Fit A L. unfold nxn. cbv zeta. apply boilerplate_obliging.
    - intros Hn c scr Lc Ls. assert (Hh : 0 < dht_len d) by nia. destruct (Fit Hh) as [F1 F2].
      destruct (Nat.ltb_spec (k * dht_len d) (dht_inplace_scratch d)); [lia|]. rewrite Nat.add_0_r in *.
      unfold nxn_inplace. rewrite transpose_half_rev_out_ok by auto. cbn [bind].
      fold (half_rev k (dht_len d) c). pose proof (half_rev_length k (dht_len d) c) as HR.
      destruct (call_oop d k (half_rev k (dht_len d) c) c []) as (i' & o' & s' & E & L1 & L2 & _); auto; [lia|rewrite F2; simpl; lia|].
      rewrite E. cbn [bind]. rewrite A by (auto; lia). cbn [bind]. eexists _, _. split; [reflexivity|]. split; auto. lia.
    - intros Hn i out scr Li Lo Ls. assert (Hh : 0 < dht_len d) by nia. destruct (Fit Hh) as [F1 F2].
      unfold nxn_oop. rewrite transpose_half_rev_out_ok by auto. cbn [bind].
      fold (half_rev k (dht_len d) i). pose proof (half_rev_length k (dht_len d) i) as HR.
      destruct (call_inplace d k (half_rev k (dht_len d) i) i) as (o' & i' & E & L1 & L2); auto; [lia|].
      rewrite E. cbn [bind]. rewrite A by (auto; lia). cbn [bind]. eexists _, _, _. split; [reflexivity|]. split; [lia|]. auto.
  Qed.
  Lemma two_obliging (d : Dht T) : obliging d -> (0 < dht_len d -> dht_inplace_scratch d <= 2 * dht_len d /\ dht_oop_scratch d = 0) -> obliging (mixed_radix_2xn d).
  Proof. intros O F. apply (nxn_obliging 2 d _ (radix2_cols (dht_len d))); auto using radix2_apply_ok. intros. apply cols_fun_length. Qed.
  Lemma three_obliging (d : Dht T) : obliging d -> (0 < dht_len d -> dht_inplace_scratch d <= 3 * dht_len d /\ dht_oop_scratch d = 0) -> obliging (mixed_radix_3xn d).
  Proof. intros O F. apply (nxn_obliging 3 d _ (radix3_cols (dht_len d))); auto using radix3_apply_ok with arith. intros. apply cols_fun_length. Qed.
  Lemma four_obliging (d : Dht T) : obliging d -> (0 < dht_len d -> dht_inplace_scratch d <= 4 * dht_len d /\ dht_oop_scratch d = 0) -> obliging (mixed_radix_4xn d).
  Proof. intros O F. apply (nxn_obliging 4 d _ (radix4_cols (dht_len d))); auto using radix4_apply_ok with arith. intros. apply cols_fun_length. Qed.
  Lemma five_obliging (d : Dht T) : obliging d -> (0 < dht_len d -> dht_inplace_scratch d <= 5 * dht_len d /\ dht_oop_scratch d = 0) -> obliging (mixed_radix_5xn d).
  Proof. intros O F. apply (nxn_obliging 5 d _ (radix5_cols (dht_len d))); auto using radix5_apply_ok with arith. intros. apply cols_fun_length. Qed.
  Lemma six_obliging (d : Dht T) : obliging d -> (0 < dht_len d -> dht_inplace_scratch d <= 6 * dht_len d /\ dht_oop_scratch d = 0) -> obliging (mixed_radix_6xn d).
  Proof. intros O F. apply (nxn_obliging 6 d _ (radix6_cols (dht_len d))); auto using radix6_apply_ok with arith. intros. apply cols_fun_length. Qed.

  Lemma split_obliging (dq dh d : Dht T) : obliging dq -> obliging dh -> split_radix dq dh = Ok d ->
    (0 < dht_len dq -> dht_inplace_scratch dh <= dht_len dh /\ dht_inplace_scratch dq <= 4 * dht_len dq /\ dht_oop_scratch dq = 0) -> obliging d.
  Proof.
    intros Oq Oh E Fit. unfold split_radix, rassert in E. destruct (Nat.eqb_spec (dht_len dh) (dht_len dq * 2)) as [Hlen|]; [|discriminate]. cbn [bind] in E.
    injection E as <-. set (q := dht_len dq) in *.
    assert (Ev : forall x : list T, length (split_evens q x) = q * 2) by (intros; unfold split_evens; now rewrite map_length, seq_length).
    assert (E1 : forall x : list T, length (split_q1 q x) = q) by (intros; unfold split_q1; now rewrite map_length, seq_length).
    assert (E3 : forall x : list T, length (split_q3 q x) = q) by (intros; unfold split_q3; now rewrite map_length, seq_length).
    apply boilerplate_obliging.
    - intros Hn c scr Lc Ls. assert (Hq : 0 < q) by lia. destruct (Fit Hq) as (F1 & F2 & F3).
      unfold split_inplace. rewrite split_apply_ok by auto. cbn [bind]. cbv zeta.
      replace (q * 4 / 2) with (q * 2) by (replace (q * 4) with (q * 2 * 2) by lia; now rewrite Nat.div_mul).
      replace (q * 4 / 4) with q by (now rewrite Nat.div_mul).
      rewrite split_at_app by auto. cbn [bind].
      destruct (call_inplace dh 1 (split_evens q c) scr) as (e & s1 & Es1 & Le & Ls1); auto; try lia; [rewrite Ev; lia|].
      rewrite Es1. cbn [bind].
      destruct (call_oop dq 2 (split_q1 q c ++ split_q3 q c) s1 []) as (o & s2 & x2 & Es2 & Lo & Ls2 & _); auto; try lia.
      { rewrite app_length, E1, E3. fold q. lia. } { rewrite app_length, E1, E3. lia. }
      rewrite Es2. cbn [bind]. rewrite app_length, E1, E3 in Lo, Ls2. rewrite Ev in Le.
      rewrite split_at_ok by lia. cbn [bind].
      rewrite (split_scatter_ok q) by (auto; rewrite ?firstn_length, ?skipn_length; lia). cbn [bind].
      eexists _, _. split; [reflexivity|]. rewrite firstn_skipn. split; [|lia]. unfold interleave. now rewrite tab_length.
    - intros Hn i out scr Li Lo Ls. assert (Hq : 0 < q) by lia. destruct (Fit Hq) as (F1 & F2 & F3).
      unfold split_oop. rewrite split_apply_ok by auto. cbn [bind]. cbv zeta.
      replace (q * 4 / 2) with (q * 2) by (replace (q * 4) with (q * 2 * 2) by lia; now rewrite Nat.div_mul).
      replace (q * 4 / 4) with q by (now rewrite Nat.div_mul).
      rewrite split_at_app by auto. cbn [bind].
      destruct (call_inplace dh 1 (split_evens q i) out) as (e & s1 & Es1 & Le & Ls1); auto; try lia; [rewrite Ev; lia|].
      rewrite Es1. cbn [bind].
      destruct (call_inplace dq 2 (split_q1 q i ++ split_q3 q i) s1) as (o & s2 & Es2 & Lo2 & Ls2); auto; try lia.
      { rewrite app_length, E1, E3. fold q. lia. }
      rewrite Es2. cbn [bind]. rewrite app_length, E1, E3 in Lo2. rewrite Ev in Le.
      rewrite split_at_ok by lia. cbn [bind].
      rewrite (split_gather_ok q) by (auto; rewrite ?firstn_length, ?skipn_length; lia). cbn [bind].
      eexists _, _, _. split; [reflexivity|]. rewrite firstn_skipn, app_length. split; [lia|]. split; auto. unfold interleave. now rewrite tab_length.
  Qed.

  Lemma raders_obliging m (d : Dht T) : obliging d -> nprime (N.of_nat (dht_len d + 1)) -> 2 <= dht_len d -> (N.of_nat (dht_len d + 1) <= 2 ^ 32)%N ->
    exists D, raders m d = Ok D /\ obliging D.
  Proof.
    intros O Pp H2 Hs. set (p := dht_len d + 1) in *.
    assert (Sp : std_prime p) by (apply nprime_nat in Pp; now rewrite Nat2N.id in Pp).
    destruct (raders_roots_ok m p Pp) as (r & s & E & Hr & Hsl & Or & Os & Hrs); [unfold p; lia|auto|].
    set (n := p - 1). assert (Hn : n = dht_len d) by (unfold n, p; lia).
    unfold raders. fold p. rewrite (proj2 (miller_rabin_ok (N.of_nat p)) Pp). cbn [rassert bind].
    rewrite E. cbn [bind]. assert (Ev := odd_prime_even p Sp ltac:(unfold p; lia)).
    assert (P3 : 3 <= p) by (unfold p; lia). assert (Hrl : r < p) by lia.
    rewrite (raders_dht_input_ok m p r s P3 Ev Hs Hrl Hsl). cbn [bind].
    assert (Li : length (raders_input (T := T) p s) = dht_len d) by (unfold raders_input; rewrite map_length, seq_length; fold n; lia).
    assert (Ep : exists B, dht_process d (raders_input p s) = Ok B /\ length B = n).
    { unfold dht_process. destruct (call_inplace d 1 (raders_input p s) (repeat nzero (dht_inplace_scratch d))) as (B & s' & EB & LB & _); auto; try lia.
      { rewrite repeat_length. apply le_n. } rewrite EB. cbn [bind]. exists B. split; auto. lia. }
    destruct Ep as (B & Ep & LB). rewrite Ep. cbn [bind].
    rewrite (raders_twiddles_ok p r s P3 Ev Hs Hrl Hsl) by auto. cbn [bind]. set (tws := raders_table p B).
    assert (Lt : length tws = n / 2 + 1) by apply raders_table_length.
    eexists. split; [reflexivity|].
    pose proof (order_distinct p r Sp Or) as Dr. pose proof (order_distinct p s Sp Os) as Ds. pose proof (order_generates p s Sp Os) as Gs.
    apply boilerplate_obliging.
    - intros _ c scr Lc Ls. unfold raders_inplace.
      destruct c as [|x0 xs]; [simpl in Lc; lia|].
      assert (Lx : length xs = n) by (simpl in Lc; unfold n; lia).
      unfold usub at 1. destruct (Nat.leb_spec 1 p); [|lia]. cbn [bind]. fold n.
      rewrite split_at_ok by lia. cbn [bind].
      assert (Lf : length (firstn n scr) = n) by (rewrite firstn_length; lia).
      set (ex := skipn n scr).
      assert (Le : length ex = if dht_inplace_scratch d <=? dht_len d then 0 else dht_inplace_scratch d)
        by (unfold ex; rewrite skipn_length; lia).
      rewrite (gather_ok m p r s P3 Ev Hs Hrl Hsl Dr x0) by auto. cbn [bind].
      set (g := raders_gather p r (x0 :: xs)).
      assert (Lg : length g = n) by (unfold g, raders_gather; now rewrite map_length, seq_length).
      assert (Hrun : forall inner buf ex', length inner = n -> length buf = n -> length ex' = length ex ->
        exists inner' buf' ex'', length inner' = n /\ length buf' = n /\ length ex'' = length ex /\
        (if 0 <? length ex' then
          '(i, e) <- dht_process_with_scratch d inner ex' ;; Ok (i, buf, e)
        else
          '(i, b) <- dht_process_with_scratch d inner buf ;; Ok (i, b, ex')) = Ok (inner', buf', ex'')).
      { intros inner buf ex' L1 L2 L3. rewrite L3, Le.
        destruct (Nat.leb_spec (dht_inplace_scratch d) (dht_len d)).
        - simpl (0 <? 0). cbn iota.
          destruct (call_inplace d 1 inner buf) as (i' & b' & E' & Li' & Lb); auto; try lia.
          rewrite E'. cbn [bind]. exists i', b', ex'. repeat split; auto; lia.
        - destruct (Nat.ltb_spec 0 (dht_inplace_scratch d)); [|lia].
          destruct (call_inplace d 1 inner ex') as (i' & b' & E' & Li' & Lb); auto; try lia.
          rewrite E'. cbn [bind]. exists i', buf, b'. repeat split; auto; lia. }
      destruct (Hrun g xs ex) as (A & b1 & e1 & LA & Lb1 & Le1 & E1); auto. rewrite E1. cbn [bind].
      pose proof (mul_inplace_ok p r s P3 Ev Hs Hrl Hsl tws x0 A LA Lt) as M.
      rewrite (idx_ok nzero) in M |- * by lia. rewrite (idx_ok (Cplx nzero nzero)) in M |- * by lia.
      cbn [bind] in M |- *. rewrite set_ok in M |- * by lia. cbn [bind] in M |- *.
      rewrite !upd_length, LA in *.
      match type of M with bind ?X _ = _ => destruct X as [i1| | |]; try discriminate end.
      cbn [bind] in M |- *.
      match type of M with bind ?X _ = _ => destruct X as [i2| | |]; try discriminate end.
      cbn [bind] in M |- *.
      destruct (idx i2 0) as [v2| | |]; try discriminate. cbn [bind] in M |- *. rewrite M. cbn [bind].
      assert (Lm : length (raders_mul p tws x0 A) = n) by (unfold raders_mul; now rewrite map_length, seq_length).
      destruct (Hrun (raders_mul p tws x0 A) b1 e1) as (C & b2 & e2 & LC & Lb2 & Le2 & E2); auto.
      rewrite E2. cbn [bind].
      rewrite (scatter_ok m p r s P3 Ev Hs Hrl Hsl Ds Gs) by auto. cbn [bind]. eexists _, _. split; [reflexivity|]. rewrite app_length. cbn [length]. rewrite map_length, seq_length.
      fold n. lia.
    - intros _ c out scr Lc Lo Ls. unfold raders_oop.
      destruct out as [|o0 os]; [simpl in Lo; lia|]. destruct c as [|x0 xs]; [simpl in Lc; lia|].
      assert (Lx : length xs = n) by (simpl in Lc; unfold n; lia).
      assert (Los : length os = n) by (simpl in Lo; unfold n; lia).
      rewrite (gather_ok m p r s P3 Ev Hs Hrl Hsl Dr x0) by auto. cbn [bind].
      set (g := raders_gather p r (x0 :: xs)).
      assert (Lg : length g = n) by (unfold g, raders_gather; now rewrite map_length, seq_length).
      assert (Hrun : forall inner buf scr', length inner = n -> length buf = n -> length scr' = length scr ->
        exists inner' buf' scr'', length inner' = n /\ length buf' = n /\ length scr'' = length scr /\
        (if 0 <? length scr' then
          '(i, e) <- dht_process_with_scratch d inner scr' ;; Ok (i, buf, e)
        else
          '(i, b) <- dht_process_with_scratch d inner buf ;; Ok (i, b, scr')) = Ok (inner', buf', scr'')).
      { intros inner buf scr' L1 L2 L3. rewrite L3, Ls.
        destruct (Nat.leb_spec (dht_inplace_scratch d) (dht_len d)).
        - simpl (0 <? 0). cbn iota.
          destruct (call_inplace d 1 inner buf) as (i' & b' & E' & Li' & Lb); auto; try lia.
          rewrite E'. cbn [bind]. exists i', b', scr'. repeat split; auto; lia.
        - destruct (Nat.ltb_spec 0 (dht_inplace_scratch d)); [|lia].
          destruct (call_inplace d 1 inner scr') as (i' & b' & E' & Li' & Lb); auto; try lia.
          rewrite E'. cbn [bind]. exists i', buf, b'. repeat split; auto; lia. }
      destruct (Hrun g xs scr) as (A & b1 & e1 & LA & Lb1 & Le1 & E1); auto. rewrite E1. cbn [bind].
      pose proof (mul_oop_ok p r s P3 Ev Hs Hrl Hsl tws x0 A b1 LA Lb1 Lt) as M.
      rewrite (idx_ok nzero) in M |- * by lia. rewrite (idx_ok (Cplx nzero nzero)) in M |- * by lia.
      cbn [bind] in M |- *. rewrite set_ok in M |- * by lia. cbn [bind] in M |- *.
      match type of M with bind ?X _ = _ => destruct X as [i1| | |]; try discriminate end.
      cbn [bind] in M |- *.
      match type of M with bind ?X _ = _ => destruct X as [i2| | |]; try discriminate end.
      cbn [bind] in M |- *.
      destruct (idx i2 0) as [v2| | |]; try discriminate. cbn [bind] in M |- *. rewrite M. cbn [bind].
      assert (Lm : length (raders_mul p tws x0 A) = n) by (unfold raders_mul; now rewrite map_length, seq_length).
      destruct (Hrun (raders_mul p tws x0 A) A e1) as (C & b2 & e2 & LC & Lb2 & Le2 & E2); auto.
      rewrite E2. cbn [bind].
      rewrite (scatter_ok m p r s P3 Ev Hs Hrl Hsl Ds Gs) by auto. cbn [bind]. eexists _, _, _. split; [reflexivity|].
      cbn [length]. rewrite map_length, seq_length. fold n. lia.
  Qed.

  (** ** the whole library *)
  Variables (m : profile) (A : allowed T).
  Hypothesis user_ok : forall d, al_user A d -> obliging d /\ modest_pos d.
  Hypothesis rader_small : forall p, al_rader A p -> (N.of_nat p <= 2 ^ 32)%N.

  Lemma assembled_obliging d : assembled m A d -> obliging d /\ modest_pos d.
  Proof.
    assert (F : forall k (d : Dht T), 0 < k -> modest_pos d -> 0 < dht_len d -> dht_inplace_scratch d <= k * dht_len d /\ dht_oop_scratch d = 0).
    { intros k d' K M P. destruct (M P) as [M1 M2]. split; auto. nia. }
    induction 1 as [d U|n| | | | | | | | | |dw dh A1 [I1 M1] A2 [I2 M2]|d A1 [I1 M1]|d A1 [I1 M1]|d A1 [I1 M1]|d A1 [I1 M1]|d A1 [I1 M1]
      |dq dh d A1 [I1 M1] A2 [I2 M2] E|len d E|d D A1 [I1 M1] E];
      try (split; [eapply ok_obliging; apply butterfly_ok; [lia|auto using bf2_kernel, bf3_kernel, bf4_kernel, bf5_kernel, bf6_kernel, bf8_kernel, bf9_kernel, bf16_kernel]
                  |intros _; split; simpl; lia]).
    - now apply user_ok.
    - split; [eapply ok_obliging; apply naive_ok|intros _; split; simpl; lia].
    - split; [eapply ok_obliging; apply butterfly1_ok|intros _; split; simpl; lia].
    - split; [now apply mixed_obliging|now apply mixed_modest].
    - split; [apply two_obliging; auto; apply F; auto; lia|apply nxn_modest; auto; lia].
    - split; [apply three_obliging; auto; apply F; auto; lia|apply nxn_modest; auto; lia].
    - split; [apply four_obliging; auto; apply F; auto; lia|apply nxn_modest; auto; lia].
    - split; [apply five_obliging; auto; apply F; auto; lia|apply nxn_modest; auto; lia].
    - split; [apply six_obliging; auto; apply F; auto; lia|apply nxn_modest; auto; lia].
    - destruct (split_radix_len _ _ _ E) as (L1 & L2 & L3 & L4). split; [|intros _; split; lia].
      apply (split_obliging dq dh); auto. intros P. destruct (M1 P) as [Q1 Q2]. destruct (M2 ltac:(lia)) as [H1 H2]. repeat split; auto. nia.
    - destruct (radix4_sizes _ _ E) as (L1 & L2 & L3). split; [|intros _; split; lia].
      destruct (radix4_pow _ _ E) as [k ->]. destruct (radix4_ok k) as (d' & E' & O & _).
      rewrite E in E'. injection E' as <-. eapply ok_obliging; eauto.
    - split; [|eapply raders_modest; eauto]. destruct (raders_prime _ _ _ E) as [P L]. destruct (raders_len _ _ _ E) as (L1 & _).
      destruct (raders_obliging m d I1 P L) as (D' & E' & O); [rewrite <- L1; now apply rader_small|].
      rewrite E in E'. injection E' as <-. auto.
  Qed.
End Oblige.
