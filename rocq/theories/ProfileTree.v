(** * Debug builds and release builds agree: the algorithms *)
From Verif Require Export ProfileProof.
From Coq Require Import NArith ZArith Lia.

Section Tree.
  Context {W W' : width} (HW : narrow W W') (m' : profile) {T : Type} {NT : Num T} (size : N).

  Lemma agree_transpose_half (a b : list T) w h : agree (transpose_half_rev_out_run (W := W) Debug a b w h) (transpose_half_rev_out_run (W := W') m' a b w h).
  Proof. unfold transpose_half_rev_out_run. ag. Qed.
  Hint Resolve agree_transpose_half : agree.

  Lemma agree_naive n : agree_new (@naive_run W T NT Debug size n) (naive_run (W := W') m' size n).
  Proof.
    unfold naive_run. apply new_bind; [ag|]. intros _. apply agree_boilerplate_oop. intros. unfold naive_perform_run. ag.
  Qed.

  Lemma agree_mixed_apply w h t (x : list T) : agree (mixed_apply_twiddles_run (W := W) Debug w h t x) (mixed_apply_twiddles_run (W := W') m' w h t x).
  Proof. unfold mixed_apply_twiddles_run, mixed_cell_run, mixed_cell_mid_run. ag. Qed.
  Lemma agree_reversal w : agree (reversal_row_begin_run (W := W) Debug w) (reversal_row_begin_run (W := W') m' w).
  Proof. unfold reversal_row_begin_run. ag. Qed.
  Lemma agree_eighth a n : agree (@eighth_turn W T NT Debug a n) (eighth_turn (W := W') m' a n).
  Proof. unfold eighth_turn. ag. Qed.
  Hint Resolve agree_mixed_apply agree_reversal agree_eighth : agree.
  Lemma agree_mixed (dw rw dh rh : Dht T) : agree_dht dw rw -> agree_dht dh rh -> agree_new (mixed_run (W := W) Debug size dw dh) (mixed_run (W := W') m' size rw rh).
  Proof.
    intros Hw H. unfold mixed_run. rewrite (ag_len _ _ Hw), (ag_len _ _ H), (ag_inplace_scratch _ _ Hw), (ag_inplace_scratch _ _ H), (ag_oop_scratch _ _ Hw).
    repeat (apply new_bind; [ag|intro; cbv zeta]).
    apply agree_boilerplate; intros; [unfold mixed_inplace_run|unfold mixed_oop_run]; ag.
  Qed.

  Lemma agree_columns {A} k h bf (tws : list A) pair (x : list T) : agree (columns_apply_run (W := W) Debug k h bf tws pair x) (columns_apply_run (W := W') m' k h bf tws pair x).
  Proof. unfold columns_apply_run. ag. Qed.
  Hint Resolve agree_columns : agree.
  Lemma agree_nxn k cap cap' table table' apply apply' (d r : Dht T) : agree_dht d r ->
    (forall n, agree (cap n) (cap' n)) -> (forall n l, agree (table n l) (table' n l)) -> (forall h t x, agree (apply h t x) (apply' h t x)) ->
    agree_new (nxn_run (W := W) Debug size k cap table apply d) (nxn_run (W := W') m' size k cap' table' apply' r).
  Proof.
    intros H C B A. unfold nxn_run. rewrite (ag_len _ _ H), (ag_inplace_scratch _ _ H).
    repeat (apply new_bind; [ag|intro; cbv zeta]).
    apply agree_boilerplate; intros; [unfold nxn_inplace_run|unfold nxn_oop_run]; ag.
  Qed.
  Lemma agree_radix2 (d r : Dht T) : agree_dht d r -> agree_new (radix2_run (W := W) Debug size d) (radix2_run (W := W') m' size r).
  Proof. intros H. apply agree_nxn; intros; unfold radix2_apply_run; ag. Qed.
  Lemma agree_radix3 (d r : Dht T) : agree_dht d r -> agree_new (radix3_run (W := W) Debug size d) (radix3_run (W := W') m' size r).
  Proof. intros H. apply agree_nxn; intros; unfold radix3_apply_run; ag. Qed.
  Lemma agree_radix4_apply h t (x : list T) : agree (radix4_apply_run (W := W) Debug h t x) (radix4_apply_run (W := W') m' h t x).
  Proof. unfold radix4_apply_run. ag. Qed.
  Hint Resolve agree_radix4_apply : agree.
  Lemma agree_radix4xn (d r : Dht T) : agree_dht d r -> agree_new (radix4xn_run (W := W) Debug size d) (radix4xn_run (W := W') m' size r).
  Proof. intros H. apply agree_nxn; intros; ag. Qed.
  Lemma agree_radix5 (d r : Dht T) : agree_dht d r -> agree_new (radix5_run (W := W) Debug size d) (radix5_run (W := W') m' size r).
  Proof. intros H. apply agree_nxn; intros; unfold radix5_apply_run; ag. Qed.
  Lemma agree_radix6 (d r : Dht T) : agree_dht d r -> agree_new (radix6_run (W := W) Debug size d) (radix6_run (W := W') m' size r).
  Proof. intros H. apply agree_nxn; intros; unfold radix6_apply_run; ag. Qed.

  Lemma agree_split_apply n t (x : list T) : agree (split_apply_twiddles_run (W := W) Debug n t x) (split_apply_twiddles_run (W := W') m' n t x).
  Proof. unfold split_apply_twiddles_run, split_cell_run. ag. Qed.
  Hint Resolve agree_split_apply : agree.
  Lemma agree_split (dq rq dh rh : Dht T) : agree_dht dq rq -> agree_dht dh rh -> agree_new (split_run (W := W) Debug size dq dh) (split_run (W := W') m' size rq rh).
  Proof.
    intros Q H. unfold split_run. rewrite (ag_len _ _ Q), (ag_len _ _ H).
    repeat (apply new_bind; [ag|intro; cbv zeta]).
    apply agree_boilerplate; intros; [unfold split_inplace_run|unfold split_oop_run]; ag.
  Qed.

  Lemma agree_prepare f : forall rv n b (x y : list T) st, agree (prepare_radix4_run (W := W) Debug f rv n b x y st) (prepare_radix4_run (W := W') m' f rv n b x y st).
  Proof. induction f as [|f I]; intros; cbn [prepare_radix4_run]; ag. Qed.
  Lemma agree_cross f : forall n c t (x : list T), agree (radix4_cross_run (W := W) Debug f n c t x) (radix4_cross_run (W := W') m' f n c t x).
  Proof. induction f as [|f I]; intros; cbn [radix4_cross_run]; ag. Qed.
  Lemma agree_table4 f : forall n s, agree (@radix4_table_go W T NT Debug f n s) (radix4_table_go (W := W') m' f n s).
  Proof. induction f as [|f I]; intros; cbn [radix4_table_go]; ag. Qed.
  Hint Resolve agree_prepare agree_cross agree_table4 : agree.
  Lemma agree_radix4_oop n b d t (x y z : list T) : agree (radix4_oop_run (W := W) Debug n b d t x y z) (radix4_oop_run (W := W') m' n b d t x y z).
  Proof. unfold radix4_oop_run. ag. Qed.
  Hint Resolve agree_radix4_oop : agree.
  Lemma agree_radix4 n : agree_new (@radix4_run W T NT Debug size n) (radix4_run (W := W') m' size n).
  Proof.
    unfold radix4_run. apply new_bind; [ag|]. intros _. destruct (radix4_base n) as [b d].
    repeat (apply new_bind; [ag|intro; cbv zeta]).
    apply agree_boilerplate; intros; [unfold radix4_inplace_run|]; ag.
  Qed.

  Lemma agree_raders_inner_input n r : agree (@raders_inner_input W T NT Debug n r) (raders_inner_input (W := W') m' n r).
  Proof. unfold raders_inner_input. ag. Qed.
  Lemma agree_raders_twiddles (x : list T) : agree (raders_twiddles_run (W := W) Debug x) (raders_twiddles_run (W := W') m' x).
  Proof. unfold raders_twiddles_run. ag. Qed.
  Hint Resolve agree_raders_inner_input agree_raders_twiddles : agree.
  Lemma uadd_lt a b c : uadd (W := W) Debug a b = Ok c -> (N.of_nat c < @span W)%N.
  Proof. unfold uadd, usize. destruct (N.ltb_spec (N.of_nat a + N.of_nat b) (@span W)); [cbn [bind]; intros [= <-]; lia|discriminate]. Qed.
  Lemma agree_raders (d r : Dht T) : agree_dht d r -> agree_new (raders_run (W := W) Debug size d) (raders_run (W := W') m' size r).
  Proof.
    intros H. unfold raders_run. rewrite (ag_len _ _ H), (ag_inplace_scratch _ _ H).
    apply new_bind_eq; [ag|intros len El]. apply new_bind; [ag|intro]. apply new_bind; [apply agree_roots; [exact HW|exact (uadd_lt _ _ _ El)]|intros [root inv]].
    repeat (apply new_bind; [ag|intro; cbv zeta]).
    apply agree_boilerplate; intros; [unfold raders_inplace_run|unfold raders_oop_run]; ag.
  Qed.

  Lemma agree_tree t : agree_new (@run_tree W T NT Debug size t) (run_tree (W := W') m' size t).
  Proof.
    induction t; cbn [run_tree]; try exact (agree_dht_refl _).
    - apply agree_naive.
    - apply new_bind_dht; [exact IHt1|intros]. apply new_bind_dht; [exact IHt2|intros]. apply agree_mixed; assumption.
    - apply new_bind_dht; [exact IHt|apply agree_radix2].
    - apply new_bind_dht; [exact IHt|apply agree_radix3].
    - apply new_bind_dht; [exact IHt|apply agree_radix4xn].
    - apply new_bind_dht; [exact IHt|apply agree_radix5].
    - apply new_bind_dht; [exact IHt|apply agree_radix6].
    - apply new_bind_dht; [exact IHt1|intros]. apply new_bind_dht; [exact IHt2|intros]. apply agree_split; assumption.
    - apply agree_radix4.
    - apply new_bind_dht; [exact IHt|apply agree_raders].
  Qed.
End Tree.
