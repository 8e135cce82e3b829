(** * MixedRadix: the two methods compute [mixed_fun] *)
From Verif Require Export MixedRadixProof.

Section MixedFun.
  Context {T : Type} {NT : Num T}.
  Variables (dw dh : Dht T) (fw fh : list T -> list T).
  Let W := dht_len dw.
  Let H := dht_len dh.

  Definition mixed_fun (x : list T) : list T :=
    cols_fun W H fw (mixed_pairp W fw) (fun c r => tw8 W H r c) (map_chunks H fh (half_rev W H x)).

  Lemma mixed_first_half (x out : list T) :
    0 < W -> 0 < H -> length x = W * H -> length out = W * H ->
    (o <- transpose x out W H ;; reverse_second_half o (reversal_row_begin W * H) H)
    = Ok (half_rev W H x).
  Proof.
    intros HW HH Lx Lo. rewrite transpose_ok by auto. cbn [bind].
    pose proof (half_lt W). pose proof (half_lt (W + 1)).
    assert (Hrb : reversal_row_begin W = W / 2 + 1).
    { unfold reversal_row_begin. destruct (Nat.eqb_spec (W mod 2) 0) as [|N]; auto.
      pose proof (Nat.div_mod W 2). pose proof (Nat.mod_upper_bound W 2). lia. }
    rewrite Hrb. rewrite (reverse_second_half_ok _ W) by (auto using tab_length; nia).
    f_equal. apply tab_ext. intros r c Hr Hc.
    destruct (Nat.ltb_spec r (W / 2 + 1)), (Nat.leb_spec r (W / 2)); try lia;
      rewrite nth_tab by lia; reflexivity.
  Qed.

  Lemma mixed_second_half (B v out1 out2 : list T) :
    0 < W -> 0 < H -> (forall x, length x = W -> length (fw x) = W) ->
    length B = W * H -> length out1 = W * H -> length out2 = W * H ->
    exists t, transpose (tab W H (mixed_val W H B)) out1 H W = Ok t /\ length t = H * W /\
    (o <- reverse_second_half (map_chunks W fw t) ((H + 1) / 2 * W) W ;; transpose o out2 W H)
    = Ok (cols_fun W H fw (mixed_pairp W fw) (fun c r => tw8 W H r c) B) /\
    exists t', reverse_second_half (map_chunks W fw t) ((H + 1) / 2 * W) W = Ok t' /\ length t' = W * H.
  Proof.
    intros HW HH Hfw LB L1 L2.
    rewrite transpose_ok by (rewrite ?tab_length; lia).
    eexists. split; [reflexivity|]. split; [apply tab_length|].
    pose proof (half_lt (H + 1)).
    set (t := tab H W _).
    assert (Et : t = tab H W (fun c r => mixed_val W H B r c)).
    { apply tab_ext. intros. now rewrite nth_tab. }
    rewrite Et. clear t Et. set (t := tab H W _).
    assert (Lt : length t = H * W) by apply tab_length.
    assert (Lm : length (map_chunks W fw t) = H * W) by (apply map_chunks_length; auto).
    rewrite (reverse_second_half_ok _ H) by lia.
    split; [|eexists; split; [reflexivity|rewrite tab_length; lia]]. cbn [bind].
    rewrite transpose_ok by (rewrite ?tab_length; lia).
    f_equal. unfold cols_fun. apply tab_ext. intros q c Hq Hc. rewrite nth_tab by auto.
    assert (Es : slice t (c * W) W = map (fun r => mixed_val W H B r c) (seq 0 W)) by now apply slice_tab.
    assert (Ls : length (slice t (c * W) W) = W) by (now rewrite Es, map_length, seq_length).
    rewrite (nth_map_chunks W H) by (auto; destruct (c <? (H + 1) / 2); lia).
    rewrite Es. unfold cols_cell.
    destruct (Nat.eqb_spec c 0) as [->|Hc0].
    - destruct (Nat.ltb_spec 0 ((H + 1) / 2)); [|lia]. reflexivity.
    - destruct (Nat.ltb_spec (2 * c) H).
      + destruct (Nat.ltb_spec c ((H + 1) / 2)); [|lia]. simpl fst. f_equal. f_equal.
        apply map_ext_in. intros r Hr. unfold mixed_val.
        destruct (Nat.eqb_spec c 0); [lia|]. destruct (Nat.ltb_spec (2 * c) H); [reflexivity|lia].
      + destruct (Nat.ltb_spec c ((H + 1) / 2)); [lia|]. simpl snd.
        rewrite nth_rev'; rewrite Hfw; rewrite ?map_length, ?seq_length; auto.
        f_equal. f_equal.
        apply map_ext_in. intros r Hr. unfold mixed_val.
        destruct (Nat.eqb_spec c 0); [lia|]. destruct (Nat.ltb_spec (2 * c) H); [lia|].
        reflexivity.
  Qed.

  Hypothesis w_ok : dht_ok dw fw.
  Hypothesis h_ok : dht_ok dh fh.

  Lemma mixed_radix_ok : dht_ok (mixed_radix dw dh) mixed_fun /\ dht_strict (mixed_radix dw dh).
  Proof.
    unfold mixed_radix. fold W H. cbv zeta. apply boilerplate_dht_ok.
    - intros. apply cols_fun_length.
    - intros Hn c scr Lc Ls. assert (HW : 0 < W) by nia. assert (HH : 0 < H) by nia.
      unfold mixed_inplace. cbv zeta.
      rewrite split_at_ok by lia. cbn [bind].
      set (inn := skipn (W * H) scr).
      assert (Li : length inn = length scr - W * H) by (unfold inn; now rewrite skipn_length).
      assert (Lf : length (firstn (W * H) scr) = W * H) by (rewrite firstn_length; lia).
      pose proof (mixed_first_half c (firstn (W * H) scr) HW HH Lc Lf) as E1.
      destruct (transpose c (firstn (W * H) scr) W H) as [s1| | |]; try discriminate. cbn [bind] in E1 |- *.
      rewrite E1. cbn [bind]. clear E1 s1.
      pose proof (tab_length W H (fun r c0 => nth ((if r <=? W / 2 then c0 else H - 1 - c0) * W + r) c nzero)) as LR.
      fold (half_rev W H c) in LR.
      set (B := map_chunks H fh (half_rev W H c)).
      assert (LB : length B = W * H) by (apply map_chunks_length; auto; apply (ok_len _ _ h_ok)).
      assert (E2 : exists buf' inn', length buf' = W * H /\ length inn' = length inn /\
          (if length c <? length inn
           then '(s, i) <- dht_process_with_scratch dh (half_rev W H c) inn ;; Ok (s, c, i)
           else '(s, b) <- dht_process_with_scratch dh (half_rev W H c) c ;; Ok (s, b, inn))
          = Ok (B, buf', inn')).
      { destruct (Nat.ltb_spec (length c) (length inn)).
        - destruct (ok_inplace _ _ h_ok HH W (half_rev W H c) inn HW LR) as (i' & E & L1 & _).
          { destruct (Nat.ltb_spec (W * H) (dht_inplace_scratch dh)); lia. }
          rewrite E. cbn [bind]. exists c, i'. auto.
        - destruct (ok_inplace _ _ h_ok HH W (half_rev W H c) c HW LR) as (i' & E & L1 & _).
          { destruct (Nat.ltb_spec (W * H) (dht_inplace_scratch dh)); lia. }
          rewrite E. cbn [bind]. exists i', inn. repeat split; auto. lia. }
      destruct E2 as (buf' & inn' & Lb' & Li' & E2). rewrite E2. cbn [bind].
      rewrite mixed_apply_ok by auto. cbn [bind].
      destruct (mixed_second_half B c buf' buf' HW HH (ok_len _ _ w_ok) LB Lb' Lb') as (t & Et & Lt & _).
      rewrite Et. cbn [bind].
      set (V := tab W H (mixed_val W H B)).
      assert (LV : length V = W * H) by apply tab_length.
      destruct (ok_oop _ _ w_ok HW H t V inn') as (i' & s' & E & L1 & L2 & _); auto; try lia.
      rewrite E. cbn [bind]. fold W.
      destruct (mixed_second_half B c buf' i' HW HH (ok_len _ _ w_ok) LB Lb' ltac:(lia))
        as (t2 & Et2 & Lt2 & Er & t' & Et' & Lt').
      rewrite Et in Et2. injection Et2 as <-. rewrite Et' in Er |- *. cbn [bind] in Er |- *.
      rewrite Er. cbn [bind]. eexists. split; [reflexivity|]. rewrite app_length. lia.
    - intros Hn c out scr Lc Lo Ls. assert (HW : 0 < W) by nia. assert (HH : 0 < H) by nia.
      unfold mixed_oop. cbv zeta.
      pose proof (mixed_first_half c out HW HH Lc Lo) as E1.
      destruct (transpose c out W H) as [s1| | |]; try discriminate. cbn [bind] in E1 |- *.
      rewrite E1. cbn [bind]. clear E1 s1.
      pose proof (tab_length W H (fun r c0 => nth ((if r <=? W / 2 then c0 else H - 1 - c0) * W + r) c nzero)) as LR.
      fold (half_rev W H c) in LR.
      set (B := map_chunks H fh (half_rev W H c)).
      assert (LB : length B = W * H) by (apply map_chunks_length; auto; apply (ok_len _ _ h_ok)).
      assert (E2 : exists buf' scr', length buf' = W * H /\ length scr' = length scr /\
          (if length c <? length scr
           then '(o, s) <- dht_process_with_scratch dh (half_rev W H c) scr ;; Ok (o, c, s)
           else '(o, i) <- dht_process_with_scratch dh (half_rev W H c) c ;; Ok (o, i, scr))
          = Ok (B, buf', scr')).
      { destruct (Nat.ltb_spec (length c) (length scr)).
        - destruct (ok_inplace _ _ h_ok HH W (half_rev W H c) scr HW LR) as (i' & E & L1 & _).
          { match type of Ls with _ = (if W * H <? ?m then _ else _) => destruct (Nat.ltb_spec (W * H) m) end; lia. }
          rewrite E. cbn [bind]. exists c, i'. auto.
        - destruct (ok_inplace _ _ h_ok HH W (half_rev W H c) c HW LR) as (i' & E & L1 & _).
          { match type of Ls with _ = (if W * H <? ?m then _ else _) => destruct (Nat.ltb_spec (W * H) m) end; lia. }
          rewrite E. cbn [bind]. exists i', scr. repeat split; auto. lia. }
      destruct E2 as (buf' & scr' & Lb' & Li' & E2). rewrite E2. cbn [bind].
      rewrite mixed_apply_ok by auto. cbn [bind].
      destruct (mixed_second_half B c buf' buf' HW HH (ok_len _ _ w_ok) LB Lb' Lb') as (t & Et & Lt & _).
      rewrite Et. cbn [bind].
      set (V := tab W H (mixed_val W H B)).
      assert (LV : length V = W * H) by apply tab_length.
      assert (E3 : exists o' s', length o' = W * H /\ length s' = length scr /\
          (if length V <? length scr'
           then '(i, s) <- dht_process_with_scratch dw t scr' ;; Ok (i, V, s)
           else '(i, o) <- dht_process_with_scratch dw t V ;; Ok (i, o, scr'))
          = Ok (map_chunks W fw t, o', s')).
      { destruct (Nat.ltb_spec (length V) (length scr')).
        - destruct (ok_inplace _ _ w_ok HW H t scr' HH Lt) as (i' & E & L1 & _).
          { match type of Ls with _ = (if W * H <? ?m then _ else _) => destruct (Nat.ltb_spec (W * H) m) end; lia. }
          rewrite E. cbn [bind]. exists V, i'. repeat split; auto; lia.
        - destruct (ok_inplace _ _ w_ok HW H t V HH Lt) as (i' & E & L1 & _).
          { match type of Ls with _ = (if W * H <? ?m then _ else _) => destruct (Nat.ltb_spec (W * H) m) end; lia. }
          rewrite E. cbn [bind]. exists i', scr'. repeat split; auto; lia. }
      destruct E3 as (o' & s' & L1 & L2 & E3). rewrite E3. cbn [bind].
      destruct (mixed_second_half B c buf' o' HW HH (ok_len _ _ w_ok) LB Lb' L1)
        as (t2 & Et2 & Lt2 & Er & t' & Et' & Lt').
      rewrite Et in Et2. injection Et2 as <-. rewrite Et' in Er |- *. cbn [bind] in Er |- *.
      rewrite Er. cbn [bind]. eexists _, _. split; [reflexivity|]. split; lia.
  Qed.
End MixedFun.
