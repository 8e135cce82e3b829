(** * MixedRadix over inner instances that only oblige, and the test with BigScratchAlgorithm *)
From Verif Require Import Lemmas Contract NxnProof MixedRadixProof.
From Verif Require Export TestSuite.
From Coq Require Import Lia.

Lemma part_mod a b : 0 < b -> b <= a -> a mod b = 0 -> (a - b) mod b = 0.
Proof.
  intros Hb Hle M. apply Nat.div_exact in M; [|lia]. rewrite M. replace (b * (a / b) - b) with ((a / b - 1) * b) by nia. apply Nat.mod_mul. lia.
Qed.

Section Chunks.
  Context {T S : Type} (n : nat) (I : S -> Prop).
  Hypothesis Hn : 0 < n.

  Lemma iter_obliging (fn : list T -> S -> res (list T * S)) :
    (forall c st, length c = n -> I st -> exists c' st', fn c st = Ok (c', st') /\ length c' = n /\ I st') ->
    forall buf st, length buf mod n = 0 -> I st ->
    exists buf' st', iter_chunks buf n fn st = Ok (buf', st', true) /\ length buf' = length buf /\ I st'.
  Proof.
    intros Hfn. cut (forall fuel buf st, length buf < fuel -> length buf mod n = 0 -> I st ->
      exists buf' st', iter_chunks_go fuel n fn buf st = Ok (buf', st', true) /\ length buf' = length buf /\ I st').
    { intros Hc buf st. apply Hc. lia. }
    induction fuel as [|fuel IH]; intros buf st Hl Hm HI; [lia|]. cbn [iter_chunks_go].
    destruct (Nat.leb_spec n (length buf)) as [Hle|Hgt].
    - rewrite split_at_ok by auto. cbn [bind]. destruct (Hfn (firstn n buf) st) as (c' & st' & E & Lc & HI'); auto; [rewrite firstn_length; lia|].
      rewrite E. cbn [bind]. destruct (IH (skipn n buf) st') as (r & st2 & E2 & L2 & HI2); auto; rewrite ?skipn_length; [lia|now apply part_mod|].
      rewrite E2. cbn [bind]. eexists _, _. split; [reflexivity|]. split; auto. rewrite app_length, L2, skipn_length. lia.
    - rewrite Nat.mod_small in Hm by auto. rewrite Hm. exists buf, st. auto.
  Qed.
  Lemma zip_obliging (fn : list T -> list T -> S -> res (list T * list T * S)) :
    (forall i o st, length i = n -> length o = n -> I st -> exists i' o' st', fn i o st = Ok (i', o', st') /\ length i' = n /\ length o' = n /\ I st') ->
    forall b1 b2 st, length b1 mod n = 0 -> length b2 = length b1 -> I st ->
    exists b1' b2' st', iter_chunks_zipped b1 b2 n fn st = Ok (b1', b2', st', true) /\ length b1' = length b1 /\ length b2' = length b1 /\ I st'.
  Proof.
    intros Hfn. cut (forall fuel b1 b2 st, length b1 < fuel -> length b1 mod n = 0 -> length b2 = length b1 -> I st ->
      exists b1' b2' st', iter_chunks_zipped_go fuel n fn false b1 b2 st = Ok (b1', b2', st', true) /\ length b1' = length b1 /\ length b2' = length b1 /\ I st').
    { intros Hc b1 b2 st Hm L HI. unfold iter_chunks_zipped. destruct (Nat.ltb_spec (length b2) (length b1)); [lia|]. apply Hc; auto; lia. }
    induction fuel as [|fuel IH]; intros b1 b2 st Hl Hm L HI; [lia|]. cbn [iter_chunks_zipped_go]. rewrite L.
    destruct (Nat.leb_spec n (length b1)) as [Hle|Hgt]; cbn [andb].
    - rewrite !split_at_ok by lia. cbn [bind].
      destruct (Hfn (firstn n b1) (firstn n b2) st) as (i' & o' & st' & E & L1 & L2 & HI'); auto; try (rewrite firstn_length; lia).
      rewrite E. cbn [bind]. destruct (IH (skipn n b1) (skipn n b2) st') as (r1 & r2 & st2 & E2 & L3 & L4 & HI2); auto; rewrite ?skipn_length; [lia|now apply part_mod|lia|].
      rewrite E2. cbn [bind]. eexists _, _, _. split; [reflexivity|]. rewrite !app_length, L3, L4, skipn_length. split; [lia|]. split; [lia|]. auto.
    - rewrite Nat.mod_small in Hm by auto. rewrite Hm. exists b1, b2, st. repeat split; auto; lia.
  Qed.
End Chunks.

Section Obliging.
  Context {T : Type} {NT : Num T}.

  Lemma boilerplate_obliging n s o inplace oop :
    (0 < n -> forall c scr, length c = n -> length scr = s -> exists c' scr', inplace c scr = Ok (c', scr') /\ length c' = n /\ length scr' = s) ->
    (0 < n -> forall i out scr, length i = n -> length out = n -> length scr = o ->
       exists i' out' scr', oop i out scr = Ok (i', out', scr') /\ length i' = n /\ length out' = n /\ length scr' = o) ->
    obliging (@boilerplate_dht T n s o inplace oop).
  Proof.
    intros Hin Hoop Hn. cbn [dht_len boilerplate_dht] in Hn. split.
    - intros b scr (S1 & S2 & S3). cbn [dht_len dht_inplace_scratch dht_process_with_scratch boilerplate_dht] in *.
      destruct (Nat.eqb_spec n 0); [lia|]. destruct (Nat.ltb_spec (length scr) s); [lia|]. destruct (Nat.ltb_spec (length b) n); [lia|]. cbn [orb].
      rewrite split_at_ok by lia. cbn [bind].
      destruct (iter_obliging n (fun scr => length scr = s) Hn inplace) with (buf := b) (st := firstn s scr) as (b' & s' & E & L1 & L2); auto; [rewrite firstn_length; lia|].
      rewrite E. cbn [bind]. eexists _, _. split; [reflexivity|]. rewrite app_length, skipn_length. lia.
    - intros i out scr (S0 & S1 & S2 & S3). cbn [dht_len dht_oop_scratch dht_process_oop boilerplate_dht] in *.
      destruct (Nat.eqb_spec n 0); [lia|]. destruct (Nat.ltb_spec (length scr) o); [lia|]. destruct (Nat.ltb_spec (length i) n); [lia|].
      destruct (Nat.eqb_spec (length out) (length i)); [|lia]. cbn [orb negb].
      rewrite split_at_ok by lia. cbn [bind].
      destruct (zip_obliging n (fun scr => length scr = o) Hn oop) with (b1 := i) (b2 := out) (st := firstn o scr) as (i' & o' & s' & E & L1 & L2 & L3); auto; [rewrite firstn_length; lia|].
      rewrite E. cbn [bind]. eexists _, _, _. split; [reflexivity|]. rewrite app_length, skipn_length. lia.
  Qed.

  Lemma transpose_len (a b : list T) w h : length a = w * h -> length b = w * h -> exists c, transpose a b w h = Ok c /\ length c = w * h.
  Proof. intros La Lb. rewrite transpose_ok by auto. eexists. split; [reflexivity|]. apply tab_length. Qed.
  Lemma reverse_len (b : list T) k h rb : 0 < h -> length b = k * h -> rb <= k -> exists c, reverse_second_half b (rb * h) h = Ok c /\ length c = k * h.
  Proof. intros Hh Lb Hr. rewrite (reverse_second_half_ok b k h rb) by auto. eexists. split; [reflexivity|]. apply tab_length. Qed.
  Lemma apply_len W H (b : list T) : 0 < W -> 0 < H -> length b = W * H -> exists c, mixed_apply_twiddles W H (mixed_twiddles W H) b = Ok c /\ length c = W * H.
  Proof. intros HW HH Lb. rewrite mixed_apply_ok by auto. eexists. split; [reflexivity|]. apply tab_length. Qed.
  Lemma begin_le W : 0 < W -> reversal_row_begin W <= W.
  Proof.
    intros HW. unfold reversal_row_begin. pose proof (half_lt W). pose proof (half_lt (W + 1)).
    destruct (Nat.eqb_spec (W mod 2) 0); pose proof (Nat.div_mod W 2); pose proof (Nat.div_mod (W + 1) 2); lia.
  Qed.
  Lemma half_le H : 0 < H -> (H + 1) / 2 <= H.
  Proof. intros HH. pose proof (Nat.div_mod (H + 1) 2). lia. Qed.

  (** an inner call on a buffer of [k] chunks *)
  Lemma call_inplace (d : Dht T) k b scr : obliging d -> 0 < dht_len d -> 0 < k -> length b = k * dht_len d -> dht_inplace_scratch d <= length scr ->
    exists b' scr', dht_process_with_scratch d b scr = Ok (b', scr') /\ length b' = length b /\ length scr' = length scr.
  Proof. intros O P K L S. apply (proj1 (O P)). split; [nia|]. split; auto. rewrite L. apply Nat.mod_mul. lia. Qed.
  Lemma call_oop (d : Dht T) k i out scr : obliging d -> 0 < dht_len d -> 0 < k -> length i = k * dht_len d -> length out = length i -> dht_oop_scratch d <= length scr ->
    exists i' out' scr', dht_process_oop d i out scr = Ok (i', out', scr') /\ length i' = length i /\ length out' = length i /\ length scr' = length scr.
  Proof.
    intros O P K L Lo S. destruct (proj2 (O P) i out scr) as (i' & o' & s' & E & L1 & L2 & L3).
    - split; auto. split; [nia|]. split; auto. rewrite L. apply Nat.mod_mul. lia.
    - exists i', o', s'. rewrite E. repeat split; auto. lia.
  Qed.

  Theorem mixed_obliging (dw dh : Dht T) : obliging dw -> obliging dh -> obliging (mixed_radix dw dh).
  Proof.
    intros Ow Oh. unfold mixed_radix. set (W := dht_len dw). set (H := dht_len dh). cbv zeta. apply boilerplate_obliging.
    - intros Hn c scr Lc Ls. assert (HW : 0 < W) by nia. assert (HH : 0 < H) by nia.
      pose proof (begin_le W HW) as Bl. pose proof (half_le H HH) as Hl.
      unfold mixed_inplace. cbv zeta. rewrite split_at_ok by lia. cbn [bind].
      set (inn := skipn (W * H) scr). assert (Li : length inn = length scr - W * H) by (unfold inn; now rewrite skipn_length).
      destruct (transpose_len c (firstn (W * H) scr) W H) as (s1 & E1 & L1); [auto|rewrite firstn_length; lia|]. rewrite E1. cbn [bind].
      destruct (reverse_len s1 W H (reversal_row_begin W)) as (s2 & E2 & L2); auto. rewrite E2. cbn [bind].
      assert (E3 : exists s3 buf' inn', length s3 = W * H /\ length buf' = W * H /\ length inn' = length inn /\
          (if length c <? length inn
           then '(s, i) <- dht_process_with_scratch dh s2 inn ;; Ok (s, c, i)
           else '(s, b) <- dht_process_with_scratch dh s2 c ;; Ok (s, b, inn)) = Ok (s3, buf', inn')).
      { destruct (Nat.ltb_spec (length c) (length inn)).
        - destruct (call_inplace dh W s2 inn) as (s3 & i' & E & A1 & A2); auto; [destruct (Nat.ltb_spec (W * H) (dht_inplace_scratch dh)); lia|].
          rewrite E. cbn [bind]. exists s3, c, i'. repeat split; auto; lia.
        - destruct (call_inplace dh W s2 c) as (s3 & i' & E & A1 & A2); auto; [destruct (Nat.ltb_spec (W * H) (dht_inplace_scratch dh)); lia|].
          rewrite E. cbn [bind]. exists s3, i', inn. repeat split; auto; lia. }
      destruct E3 as (s3 & buf & inn' & L3 & Lb & Li' & E3). rewrite E3. cbn [bind].
      destruct (apply_len W H s3) as (s4 & E4 & L4); auto. rewrite E4. cbn [bind].
      destruct (transpose_len s4 buf H W) as (s5 & E5 & L5); [lia|lia|]. rewrite E5. cbn [bind].
      destruct (call_oop dw H s5 s4 inn') as (s6 & s7 & i6 & E6 & L6 & L7 & L8); auto; try lia. rewrite E6. cbn [bind].
      destruct (reverse_len s7 H W ((H + 1) / 2)) as (s8 & E8 & L9); auto; try lia. rewrite E8. cbn [bind].
      destruct (transpose_len s8 s6 W H) as (s9 & E9 & L10); [lia|lia|]. rewrite E9. cbn [bind].
      eexists _, _. split; [reflexivity|]. rewrite app_length. split; lia.
    - intros Hn c out scr Lc Lo Ls. assert (HW : 0 < W) by nia. assert (HH : 0 < H) by nia.
      pose proof (begin_le W HW) as Bl. pose proof (half_le H HH) as Hl.
      unfold mixed_oop. cbv zeta.
      destruct (transpose_len c out W H) as (s1 & E1 & L1); auto. rewrite E1. cbn [bind].
      destruct (reverse_len s1 W H (reversal_row_begin W)) as (s2 & E2 & L2); auto. rewrite E2. cbn [bind].
      assert (E3 : exists s3 buf' scr', length s3 = W * H /\ length buf' = W * H /\ length scr' = length scr /\
          (if length c <? length scr
           then '(o, s) <- dht_process_with_scratch dh s2 scr ;; Ok (o, c, s)
           else '(o, i) <- dht_process_with_scratch dh s2 c ;; Ok (o, i, scr)) = Ok (s3, buf', scr')).
      { destruct (Nat.ltb_spec (length c) (length scr)).
        - destruct (call_inplace dh W s2 scr) as (s3 & i' & E & A1 & A2); auto.
          { match type of Ls with _ = (if W * H <? ?m then _ else _) => destruct (Nat.ltb_spec (W * H) m) end; lia. }
          rewrite E. cbn [bind]. exists s3, c, i'. repeat split; auto; lia.
        - destruct (call_inplace dh W s2 c) as (s3 & i' & E & A1 & A2); auto.
          { match type of Ls with _ = (if W * H <? ?m then _ else _) => destruct (Nat.ltb_spec (W * H) m) end; lia. }
          rewrite E. cbn [bind]. exists s3, i', scr. repeat split; auto; lia. }
      destruct E3 as (s3 & buf & scr' & L3 & Lb & Li' & E3). rewrite E3. cbn [bind].
      destruct (apply_len W H s3) as (s4 & E4 & L4); auto. rewrite E4. cbn [bind].
      destruct (transpose_len s4 buf H W) as (s5 & E5 & L5); [lia|lia|]. rewrite E5. cbn [bind].
      assert (E6 : exists s6 s7 scr2, length s6 = W * H /\ length s7 = W * H /\ length scr2 = length scr /\
          (if length s4 <? length scr'
           then '(i, s) <- dht_process_with_scratch dw s5 scr' ;; Ok (i, s4, s)
           else '(i, o) <- dht_process_with_scratch dw s5 s4 ;; Ok (i, o, scr')) = Ok (s6, s7, scr2)).
      { destruct (Nat.ltb_spec (length s4) (length scr')).
        - destruct (call_inplace dw H s5 scr') as (s6 & i' & E & A1 & A2); auto.
          { match type of Ls with _ = (if W * H <? ?m then _ else _) => destruct (Nat.ltb_spec (W * H) m) end; lia. }
          rewrite E. cbn [bind]. exists s6, s4, i'. repeat split; auto; lia.
        - destruct (call_inplace dw H s5 s4) as (s6 & i' & E & A1 & A2); auto.
          { match type of Ls with _ = (if W * H <? ?m then _ else _) => destruct (Nat.ltb_spec (W * H) m) end; lia. }
          rewrite E. cbn [bind]. exists s6, i', scr'. repeat split; auto; lia. }
      destruct E6 as (s6 & s7 & scr2 & L6 & L7 & L8 & E6). rewrite E6. cbn [bind].
      destruct (reverse_len s6 H W ((H + 1) / 2)) as (s8 & E8 & L9); auto; try lia. rewrite E8. cbn [bind].
      destruct (transpose_len s8 s7 W H) as (s9 & E9 & L10); [lia|lia|]. rewrite E9. cbn [bind].
      eexists _, _, _. split; [reflexivity|]. repeat split; lia.
  Qed.

  (** ** BigScratchAlgorithm *)
  Lemma big_obliging len s o : obliging (@big_scratch_algorithm T len s o).
  Proof.
    intros Hn. split.
    - intros b scr (_ & _ & S3). cbn [big_scratch_algorithm dht_inplace_scratch dht_process_with_scratch rassert] in *.
      rewrite (proj2 (Nat.leb_le s (length scr)) S3). cbn [bind]. exists b, scr. auto.
    - intros i out scr (S0 & _ & _ & S3). cbn [big_scratch_algorithm dht_oop_scratch dht_process_oop rassert] in *.
      rewrite (proj2 (Nat.leb_le o (length scr)) S3). cbn [bind]. exists i, out, scr. repeat split; auto.
  Qed.
  Lemma inner_scratch_passes (dw dh : Dht T) : obliging dw -> obliging dh -> 0 < dht_len dw -> 0 < dht_len dh -> test_inner_scratch dw dh = Ok tt.
  Proof.
    intros Ow Oh HW HH. unfold test_inner_scratch. cbv zeta. pose proof (mixed_obliging dw dh Ow Oh) as O. set (d := mixed_radix dw dh) in *.
    assert (P : 0 < dht_len d) by (unfold d, mixed_radix; cbn [boilerplate_dht dht_len]; nia).
    destruct (call_inplace d 1 (repeat nzero (dht_len d)) (repeat nzero (dht_inplace_scratch d))) as (b & s & E & _); auto; rewrite ?repeat_length; try lia.
    rewrite E. cbn [bind].
    destruct (call_oop d 1 (repeat nzero (dht_len d)) (repeat nzero (dht_len d)) (repeat nzero (dht_oop_scratch d))) as (i & o & s' & E' & _); auto; rewrite ?repeat_length; try lia.
    rewrite E'. reflexivity.
  Qed.
  Lemma suite_inner_scratch : @test_mixed_radix_inner_scratch T NT = Ok tt.
  Proof.
    unfold test_mixed_radix_inner_scratch. cbv zeta.
    assert (Q : forall d, In d (flat_map (fun len => flat_map (fun s => map (fun o => @big_scratch_algorithm T len s o) [1; 5; 25]) [1; 5; 25]) [1; 5; 25]) ->
      obliging d /\ 0 < dht_len d).
    { intros d Hd. apply in_flat_map in Hd as (len & Hlen & Hd). apply in_flat_map in Hd as (s & _ & Hd). apply in_map_iff in Hd as (o & <- & _).
      split; [apply big_obliging|]. cbn [big_scratch_algorithm dht_len]. cbn [In] in Hlen. lia. }
    apply each_ok. intros dw Hw. apply each_ok. intros dh Hh. destruct (Q dw Hw), (Q dh Hh). now apply inner_scratch_passes.
  Qed.
End Obliging.
