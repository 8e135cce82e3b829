(** * The benchmarks return *)
From Verif Require Import Lemmas Contract TreeProof NumTheory Residues MathProofs RootProofs Radix4Proof.
From Verif Require Export Oblige Bench.
From Coq Require Import Lia NArith.

Section Bench.
  Context {T : Type} {NT : Num T}.

  Lemma noop_obliging n : obliging (noop n : Dht T).
  Proof. intros _. split; intros; simpl; eauto 10. Qed.
  Lemma noop_modest n : modest (noop n : Dht T).
  Proof. split; simpl; lia. Qed.

  Lemma iter_ok (d : Dht T) count b s : obliging d -> 0 < dht_len d -> sized_inplace d b s -> bench_iter count d b s = Ok tt.
  Proof.
    intros O P S. unfold bench_iter.
    assert (H : forall l b s, sized_inplace d b s -> exists p,
      for_each l (fun (_ : nat) '(buffer, scratch) => dht_process_with_scratch d buffer scratch) (b, s) = Ok p).
    { clear S b s. induction l as [|a l IH]; intros b s S; [eexists; reflexivity|]. cbn [for_each].
      destruct (O P) as [O1 _]. destruct (O1 b s S) as (b' & s' & E & L1 & L2). rewrite E. cbn [bind]. apply IH.
      unfold sized_inplace in *. now rewrite L1, L2. }
    destruct (H (seq 0 count) b s S) as [p E]. rewrite E. reflexivity.
  Qed.
  Lemma inplace_ok (d : Dht T) count : obliging d -> 0 < dht_len d -> bench_inplace count d = Ok tt.
  Proof.
    intros O P. apply iter_ok; auto. unfold sized_inplace. rewrite !repeat_length. split; [lia|]. split; [apply Nat.mod_same; lia|apply le_n].
  Qed.
  Lemma inert_ok (d : Dht T) count : (forall b s, dht_process_with_scratch d b s = Ok (b, s)) -> bench_inplace count d = Ok tt.
  Proof.
    intros H. unfold bench_inplace, bench_iter.
    assert (G : forall l b s, for_each l (fun (_ : nat) '(buffer, scratch) => dht_process_with_scratch d buffer scratch) (b, s) = Ok (b, s)).
    { induction l as [|a l IH]; intros b s; [reflexivity|]. cbn [for_each]. rewrite H. cbn [bind]. apply IH. }
    rewrite G. reflexivity.
  Qed.

  (** the library, and the library over Noop *)
  Definition lib_noop : allowed T := over (fun d => exists n, d = noop n).
  Lemma over_noop m (d : Dht T) : assembled m lib_noop d -> obliging d /\ modest_pos d.
  Proof.
    apply assembled_obliging.
    - intros e [n ->]. split; [apply noop_obliging|]. intros _. apply noop_modest.
    - auto.
  Qed.
  Lemma library_obliging m (d : Dht T) : assembled m library d -> obliging d.
  Proof. intros A. eapply assembled_obliging; eauto; simpl; tauto. Qed.

  Lemma mixed_noop count w h : bench_mixed_radix_noop (T := T) count w h = Ok tt.
  Proof.
    unfold bench_mixed_radix_noop. destruct (Nat.eq_dec (w * h) 0) as [Z|Z].
    - apply inert_ok. intros b s. unfold mixed_radix. cbn [dht_process_with_scratch boilerplate_dht dht_len noop]. rewrite Z. reflexivity.
    - apply inplace_ok; [apply mixed_obliging; apply noop_obliging|simpl; lia].
  Qed.
  Lemma four_noop count h : bench_4xn_noop (T := T) count h = Ok tt.
  Proof.
    unfold bench_4xn_noop. destruct (Nat.eq_dec h 0) as [->|Z].
    - apply inert_ok. reflexivity.
    - apply inplace_ok; [|simpl; lia]. apply four_obliging; [apply noop_obliging|]. simpl. lia.
  Qed.
  Lemma raders_noop m count p : nprime (N.of_nat p) -> p <> 2 -> (N.of_nat p <= 2 ^ 32)%N -> bench_raders_noop (T := T) m count p = Ok tt.
  Proof.
    intros P P2 Hs. assert (G : 2 <= p) by (apply nprime_nat in P; rewrite Nat2N.id in P; destruct P; lia).
    unfold bench_raders_noop, usub. destruct (Nat.leb_spec 1 p); [|lia]. cbn [bind].
    destruct (raders_obliging m (noop (p - 1) : Dht T)) as (D & E & O); cbn [dht_len noop]; try (replace (p - 1 + 1) with p by lia); auto; [apply noop_obliging|lia|].
    rewrite E. cbn [bind]. apply inplace_ok; auto. destruct (raders_len _ _ _ E) as (L & _). rewrite L. lia.
  Qed.
  Lemma direct_radix4 count k : bench_direct_radix4 (T := T) count (2 ^ k) = Ok tt.
  Proof.
    unfold bench_direct_radix4. destruct (radix4_ok (T := T) k) as (d & E & O & _). rewrite E. cbn [bind].
    destruct (radix4_sizes _ _ E) as (L & _). apply inplace_ok; [eapply ok_obliging; eauto|]. rewrite L. pose proof (Nat.pow_nonzero 2 k). lia.
  Qed.
  Lemma raders_power2 m count k : k <> 0 -> nprime (N.of_nat (2 ^ k + 1)) -> (N.of_nat (2 ^ k + 1) <= 2 ^ 32)%N ->
    bench_raders_power2 (T := T) m count (2 ^ k + 1) = Ok tt.
  Proof.
    intros K P Hs. unfold bench_raders_power2, usub. destruct (Nat.leb_spec 1 (2 ^ k + 1)); [|lia]. cbn [bind]. replace (2 ^ k + 1 - 1) with (2 ^ k) by lia.
    destruct (radix4_ok (T := T) k) as (d & E & O & _). rewrite E. cbn [bind]. destruct (radix4_sizes _ _ E) as (L & _).
    assert (2 <= 2 ^ k) by (destruct k as [|k]; [lia|]; pose proof (Nat.pow_nonzero 2 k); simpl; lia).
    destruct (raders_obliging m d) as (D & E2 & O2); rewrite ?L; auto; [eapply ok_obliging; eauto|].
    rewrite E2. cbn [bind]. apply inplace_ok; auto. destruct (raders_len _ _ _ E2) as (L2 & _). rewrite L2. lia.
  Qed.
  Lemma fly3 count : bench_butterfly3 (T := T) count = Ok tt.
  Proof. apply iter_ok; [apply (library_obliging Debug), as_bf3|simpl; lia|]. split; [rewrite repeat_length; simpl; lia|]. split; [now rewrite repeat_length|simpl; lia]. Qed.
  Lemma fly6 count : bench_butterfly6 (T := T) count = Ok tt.
  Proof. apply iter_ok; [apply (library_obliging Debug), as_bf6|simpl; lia|]. split; [rewrite repeat_length; simpl; lia|]. split; [now rewrite repeat_length|simpl; lia]. Qed.

  (** ** the recursive constructors *)
  Section Make.
    Variables (m : profile) (A : allowed T).
    Lemma made4 : forall fuel len d, make_4xn_radix4_go fuel len = Ok d -> assembled m A d /\ dht_len d <= len /\ (exists k, dht_len d = 2 ^ S k).
    Proof.
      induction fuel as [|f IH]; intros len d E; [discriminate|]. cbn [make_4xn_radix4_go] in E.
      destruct (Nat.eqb_spec len 0); [discriminate|]. destruct (Nat.eqb_spec len 1); [discriminate|]. cbn [orb] in E.
      destruct (Nat.eqb_spec len 2) as [->|]; [injection E as <-; split; [apply as_bf2|]; split; [apply le_n|now exists 0]|].
      destruct (Nat.eqb_spec len 4) as [->|]; [injection E as <-; split; [apply as_bf4|]; split; [apply le_n|now exists 1]|].
      destruct (Nat.eqb_spec len 8) as [->|]; [injection E as <-; split; [apply as_bf8|]; split; [apply le_n|now exists 2]|].
      destruct (Nat.eqb_spec len 16) as [->|]; [injection E as <-; split; [apply as_bf16|]; split; [apply le_n|now exists 3]|].
      destruct (make_4xn_radix4_go f (len / 4)) as [d'| | |] eqn:E'; try discriminate. injection E as <-. destruct (IH _ _ E') as (I1 & I2 & k & I3).
      split; [now apply as_4xn|]. assert (Le : dht_len (mixed_radix_4xn d') = 4 * dht_len d') by reflexivity. rewrite Le.
      split; [pose proof (Nat.div_mod len 4); lia|]. exists (S (S k)). rewrite I3. simpl. lia.
    Qed.
    Lemma make4_pow : forall k fuel, 2 ^ S k < fuel -> exists d, make_4xn_radix4_go fuel (2 ^ S k) = Ok d /\ dht_len d = 2 ^ S k.
    Proof.
      induction k as [k IH] using lt_wf_ind. intros fuel F. destruct fuel as [|f]; [lia|].
      destruct k as [|[|[|[|k]]]]; try (eexists; split; reflexivity).
      cbn [make_4xn_radix4_go]. assert (P : 32 <= 2 ^ S (S (S (S (S k))))) by (pose proof (Nat.pow_nonzero 2 k); simpl; lia).
      destruct (Nat.eqb_spec (2 ^ S (S (S (S (S k))))) 0); [lia|]. destruct (Nat.eqb_spec (2 ^ S (S (S (S (S k))))) 1); [lia|].
      destruct (Nat.eqb_spec (2 ^ S (S (S (S (S k))))) 2); [lia|]. destruct (Nat.eqb_spec (2 ^ S (S (S (S (S k))))) 4); [lia|].
      destruct (Nat.eqb_spec (2 ^ S (S (S (S (S k))))) 8); [lia|]. destruct (Nat.eqb_spec (2 ^ S (S (S (S (S k))))) 16); [lia|]. cbn [orb].
      assert (D : 2 ^ S (S (S (S (S k)))) = 2 ^ S (S (S k)) * 4) by (simpl; lia).
      rewrite D in *. rewrite Nat.div_mul by lia. destruct (IH (S (S k)) ltac:(lia) f) as (d & E & L); [lia|].
      rewrite E. cbn [bind]. eexists. split; [reflexivity|]. change (dht_len (mixed_radix_4xn d)) with (4 * dht_len d). lia.
    Qed.

    Lemma made3 : forall fuel len d, make_3xn_radix3_go fuel len = Ok d -> assembled m A d /\ dht_len d <= len /\ (exists k, dht_len d = 3 ^ S k).
    Proof.
      induction fuel as [|f IH]; intros len d E; [discriminate|]. cbn [make_3xn_radix3_go] in E.
      destruct (Nat.eqb_spec len 0); [discriminate|]. destruct (Nat.eqb_spec len 1); [discriminate|]. cbn [orb] in E.
      destruct (Nat.eqb_spec len 3) as [->|]; [injection E as <-; split; [apply as_bf3|]; split; [apply le_n|now exists 0]|].
      destruct (Nat.eqb_spec len 9) as [->|]; [injection E as <-; split; [apply as_bf9|]; split; [apply le_n|now exists 1]|].
      destruct (make_3xn_radix3_go f (len / 3)) as [d'| | |] eqn:E'; try discriminate. injection E as <-. destruct (IH _ _ E') as (I1 & I2 & k & I3).
      split; [now apply as_3xn|]. change (dht_len (mixed_radix_3xn d')) with (3 * dht_len d').
      split; [pose proof (Nat.div_mod len 3); lia|]. exists (S k). rewrite I3. reflexivity.
    Qed.
    Lemma make3_pow : forall k fuel, 3 ^ S k < fuel -> exists d, make_3xn_radix3_go fuel (3 ^ S k) = Ok d /\ dht_len d = 3 ^ S k.
    Proof.
      induction k as [k IH] using lt_wf_ind. intros fuel F. destruct fuel as [|f]; [lia|].
      destruct k as [|[|k]]; try (eexists; split; reflexivity).
      cbn [make_3xn_radix3_go]. assert (P : 27 <= 3 ^ S (S (S k))) by (pose proof (Nat.pow_nonzero 3 k); simpl; lia).
      destruct (Nat.eqb_spec (3 ^ S (S (S k))) 0); [lia|]. destruct (Nat.eqb_spec (3 ^ S (S (S k))) 1); [lia|].
      destruct (Nat.eqb_spec (3 ^ S (S (S k))) 3); [lia|]. destruct (Nat.eqb_spec (3 ^ S (S (S k))) 9); [lia|]. cbn [orb].
      assert (D : 3 ^ S (S (S k)) = 3 ^ S (S k) * 3) by (simpl; lia).
      rewrite D in *. rewrite Nat.div_mul by lia. destruct (IH (S k) ltac:(lia) f) as (d & E & L); [lia|].
      rewrite E. cbn [bind]. eexists. split; [reflexivity|]. change (dht_len (mixed_radix_3xn d)) with (3 * dht_len d). lia.
    Qed.

    Lemma made5 : forall fuel len d, make_5xn_radix5_go fuel len = Ok d -> assembled m A d /\ dht_len d <= len /\ (exists k, dht_len d = 5 ^ S k).
    Proof.
      induction fuel as [|f IH]; intros len d E; [discriminate|]. cbn [make_5xn_radix5_go] in E.
      destruct (Nat.eqb_spec len 0); [discriminate|]. destruct (Nat.eqb_spec len 1); [discriminate|]. cbn [orb] in E.
      destruct (Nat.eqb_spec len 5) as [->|]; [injection E as <-; split; [apply as_bf5|]; split; [apply le_n|now exists 0]|].
      destruct (make_5xn_radix5_go f (len / 5)) as [d'| | |] eqn:E'; try discriminate. injection E as <-. destruct (IH _ _ E') as (I1 & I2 & k & I3).
      split; [now apply as_5xn|]. change (dht_len (mixed_radix_5xn d')) with (5 * dht_len d').
      split; [pose proof (Nat.div_mod len 5); lia|]. exists (S k). rewrite I3. reflexivity.
    Qed.
    Lemma make5_pow : forall k fuel, 5 ^ S k < fuel -> exists d, make_5xn_radix5_go fuel (5 ^ S k) = Ok d /\ dht_len d = 5 ^ S k.
    Proof.
      induction k as [|k IH]; intros fuel F; (destruct fuel as [|f]; [lia|]); [eexists; split; reflexivity|].
      cbn [make_5xn_radix5_go]. assert (P : 25 <= 5 ^ S (S k)) by (pose proof (Nat.pow_nonzero 5 k); simpl; lia).
      destruct (Nat.eqb_spec (5 ^ S (S k)) 0); [lia|]. destruct (Nat.eqb_spec (5 ^ S (S k)) 1); [lia|].
      destruct (Nat.eqb_spec (5 ^ S (S k)) 5); [lia|]. cbn [orb].
      assert (D : 5 ^ S (S k) = 5 ^ S k * 5) by (simpl; lia).
      rewrite D in *. rewrite Nat.div_mul by lia. destruct (IH f) as (d & E & L); [lia|].
      rewrite E. cbn [bind]. eexists. split; [reflexivity|]. change (dht_len (mixed_radix_5xn d)) with (5 * dht_len d). lia.
    Qed.

    Lemma made6 : forall fuel len d, make_6xn_radix6_go fuel len = Ok d -> assembled m A d /\ dht_len d <= len /\ (exists k, dht_len d = 6 ^ S k).
    Proof.
      induction fuel as [|f IH]; intros len d E; [discriminate|]. cbn [make_6xn_radix6_go] in E.
      destruct (Nat.eqb_spec len 0); [discriminate|]. destruct (Nat.eqb_spec len 1); [discriminate|]. cbn [orb] in E.
      destruct (Nat.eqb_spec len 6) as [->|]; [injection E as <-; split; [apply as_bf6|]; split; [apply le_n|now exists 0]|].
      destruct (make_6xn_radix6_go f (len / 6)) as [d'| | |] eqn:E'; try discriminate. injection E as <-. destruct (IH _ _ E') as (I1 & I2 & k & I3).
      split; [now apply as_6xn|]. change (dht_len (mixed_radix_6xn d')) with (6 * dht_len d').
      split; [pose proof (Nat.div_mod len 6); lia|]. exists (S k). rewrite I3. reflexivity.
    Qed.
    Lemma make6_pow : forall k fuel, 6 ^ S k < fuel -> exists d, make_6xn_radix6_go fuel (6 ^ S k) = Ok d /\ dht_len d = 6 ^ S k.
    Proof.
      induction k as [|k IH]; intros fuel F; (destruct fuel as [|f]; [lia|]); [eexists; split; reflexivity|].
      cbn [make_6xn_radix6_go]. assert (P : 36 <= 6 ^ S (S k)) by (pose proof (Nat.pow_nonzero 6 k); simpl; lia).
      destruct (Nat.eqb_spec (6 ^ S (S k)) 0); [lia|]. destruct (Nat.eqb_spec (6 ^ S (S k)) 1); [lia|].
      destruct (Nat.eqb_spec (6 ^ S (S k)) 6); [lia|]. cbn [orb].
      assert (D : 6 ^ S (S k) = 6 ^ S k * 6) by (simpl; lia).
      rewrite D in *. rewrite Nat.div_mul by lia. destruct (IH f) as (d & E & L); [lia|].
      rewrite E. cbn [bind]. eexists. split; [reflexivity|]. change (dht_len (mixed_radix_6xn d)) with (6 * dht_len d). lia.
    Qed.

    (** SplitRadix: the list of transforms of lengths 1, 2, 4, ... *)
    Definition doubling (l : list (Dht T)) : Prop := 5 <= length l /\ forall i d, nth_error l i = Some d -> assembled m A d /\ dht_len d = 2 ^ i.
    Lemma split_go : forall fuel index l, doubling l -> S index < fuel + length l -> fuel <> 0 -> exists l', make_splitradix_go fuel index l = Ok l' /\ doubling l' /\ length l' = Nat.max (length l) (S index).
    Proof.
      induction fuel as [|f IH]; intros index l [L D] F NZ; [lia|]. cbn [make_splitradix_go].
      destruct (Nat.leb_spec (length l) index) as [H|H].
      - unfold usub. destruct (Nat.leb_spec 2 (length l)); [|lia]. destruct (Nat.leb_spec 1 (length l)); [|lia]. cbn [bind]. unfold idx.
        destruct (nth_error l (length l - 2)) as [q|] eqn:Eq; [|apply nth_error_None in Eq; lia].
        destruct (nth_error l (length l - 1)) as [h|] eqn:Eh; [|apply nth_error_None in Eh; lia]. cbn [bind].
        destruct (D _ _ Eq) as [Aq Lq]. destruct (D _ _ Eh) as [Ah Lh].
        assert (Hh : dht_len h = dht_len q * 2) by (rewrite Lq, Lh; replace (length l - 1) with (S (length l - 2)) by lia; simpl; lia).
        destruct (split_radix q h) as [d| | |] eqn:E; try (unfold split_radix, rassert in E; rewrite Hh, Nat.eqb_refl in E; discriminate).
        cbn [bind]. destruct (split_radix_len _ _ _ E) as (_ & L1 & _).
        assert (D' : doubling (l ++ [d])).
        { split; [rewrite app_length; simpl; lia|]. intros i e Ei. destruct (Nat.lt_ge_cases i (length l)) as [Hi|Hi].
          - rewrite nth_error_app1 in Ei by auto. auto.
          - rewrite nth_error_app2 in Ei by auto. destruct (i - length l) as [|j] eqn:Ej; [|destruct j; discriminate]. assert (Ed : e = d) by (simpl in Ei; congruence). rewrite Ed.
            split; [exact (as_split m A q h d Aq Ah E)|]. rewrite L1, Lq. replace i with (S (S (length l - 2))) by lia. simpl. lia. }
        destruct f as [|f]; [lia|].
        destruct (IH index (l ++ [d]) D') as (l' & E' & Dl & Ll); [rewrite app_length; simpl; lia|lia|].
        exists l'. split; auto. split; auto. rewrite Ll, app_length. simpl. lia.
      - exists l. split; auto. split; [split; auto|]. lia.
    Qed.
    Lemma make_split len : exists d, make_splitradix len = Ok d /\ assembled m A d /\ dht_len d = 2 ^ Nat.max 4 (usize_trailing_zeros len).
    Proof.
      unfold make_splitradix. cbv zeta. set (index := usize_trailing_zeros len).
      destruct (split_go (S index) index [butterfly1; butterfly2; butterfly4; butterfly8; butterfly16]) as (l & E & [L D] & Ll); [|simpl; lia|lia|].
      { split; [simpl; lia|]. intros [|[|[|[|[|i]]]]] d H; try (injection H as <-; split; [first [apply as_bf1|apply as_bf2|apply as_bf4|apply as_bf8|apply as_bf16]|reflexivity]). destruct i; discriminate. }
      rewrite E. cbn [bind]. unfold usub. destruct (Nat.leb_spec 1 (length l)); [|lia]. cbn [bind]. unfold idx.
      destruct (nth_error l (length l - 1)) as [d|] eqn:Ed; [|apply nth_error_None in Ed; lia]. exists d. split; auto.
      destruct (D _ _ Ed) as [A1 A2]. split; auto. rewrite A2, Ll. f_equal. simpl length. lia.
    Qed.
  End Make.

  Lemma tz_pow k : usize_trailing_zeros (2 ^ k) = k.
  Proof. unfold usize_trailing_zeros. destruct (Nat.eqb_spec (2 ^ k) 0) as [E|_]; [now apply Nat.pow_nonzero in E|apply trailing_zeros_pow2]. Qed.

  Lemma bench4 count k : bench_4xn_radix4 (T := T) count (2 ^ S k) = Ok tt.
  Proof.
    unfold bench_4xn_radix4, make_4xn_radix4. destruct (make4_pow k (S (2 ^ S k))) as (d & E & L); [lia|]. rewrite E. cbn [bind].
    destruct (made4 Debug library _ _ _ E) as [A _]. apply inplace_ok; [eapply library_obliging; eauto|]. rewrite L. pose proof (Nat.pow_nonzero 2 (S k)). lia.
  Qed.
  Lemma bench_power b count (mk : nat -> res (Dht T)) : 1 < b ->
    (forall len d, mk len = Ok d -> assembled Debug library d /\ dht_len d <= len /\ (exists k, dht_len d = b ^ S k)) ->
    (forall k, exists d, mk (b ^ S k) = Ok d /\ dht_len d = b ^ S k) ->
    forall len, (dht <- mk len ;; _ <- rassert (dht_len dht =? len) ;; bench_inplace count dht) = Ok tt <-> exists k, len = b ^ S k.
  Proof.
    intros Hb Made Pow len. split.
    - destruct (mk len) as [d| | |] eqn:E; try discriminate. cbn [bind]. destruct (Made _ _ E) as (_ & _ & k & L).
      destruct (Nat.eqb_spec (dht_len d) len) as [El|]; [|discriminate]. intros _. exists k. congruence.
    - intros [k ->]. destruct (Pow k) as (d & E & L). rewrite E. cbn [bind]. rewrite L, Nat.eqb_refl. cbn [rassert bind].
      destruct (Made _ _ E) as [A _]. apply inplace_ok; [eapply library_obliging; eauto|]. rewrite L. pose proof (Nat.pow_nonzero b (S k)). lia.
  Qed.
  Lemma bench3 count len : bench_3xn_radix3 (T := T) count len = Ok tt <-> exists k, len = 3 ^ S k.
  Proof. apply bench_power; [lia|intros l d; apply made3|intros k; apply make3_pow; lia]. Qed.
  Lemma bench5 count len : bench_5xn_radix5 (T := T) count len = Ok tt <-> exists k, len = 5 ^ S k.
  Proof. apply bench_power; [lia|intros l d; apply made5|intros k; apply make5_pow; lia]. Qed.
  Lemma bench6 count len : bench_6xn_radix6 (T := T) count len = Ok tt <-> exists k, len = 6 ^ S k.
  Proof. apply bench_power; [lia|intros l d; apply made6|intros k; apply make6_pow; lia]. Qed.
  Lemma bench_split count len : bench_splitradix (T := T) count len = Ok tt <-> exists k, 4 <= k /\ len = 2 ^ k.
  Proof.
    unfold bench_splitradix. destruct (make_split Debug library len) as (d & E & A & L). rewrite E. cbn [bind]. split.
    - destruct (Nat.eqb_spec (dht_len d) len) as [El|]; [|discriminate]. intros _. rewrite <- El, L. eexists. split; [|reflexivity]. lia.
    - intros (k & K & ->). rewrite L, tz_pow. replace (Nat.max 4 k) with k by lia. rewrite Nat.eqb_refl. cbn [rassert bind].
      apply inplace_ok; [eapply library_obliging; eauto|]. rewrite L. pose proof (Nat.pow_nonzero 2 (Nat.max 4 (usize_trailing_zeros (2 ^ k)))). lia.
  Qed.
End Bench.
