(** * Operation counts of every algorithm *)
From Verif Require Export Cost.
From Verif Require Import Lemmas NxnProof NxnInst NxnReal MixedRadixProof MixedContract SplitRadixProof Radix4Proof NumTheory RadersProof RadersContract FloatTree PropsSameProof.
From Coq Require Import Lia Arith NArith Bool.
Local Open Scope nat_scope.

(** [f] computes its outputs from its inputs in [c] operations, [s] in a row *)
Definition cheap (f : list expr -> list expr) (n c s : nat) : Prop :=
  forall x, length x = n -> length (f x) = n /\ computable x c (f x) /\ Forall (deep x s) (f x).
Definition made (x : list expr) (c s : nat) (ys : list expr) : Prop := computable x c ys /\ Forall (deep x s) ys.

Lemma made_trans x c c' s s' ys zs : made x c s ys -> made ys c' s' zs -> made x (c + c') (s + s') zs.
Proof.
  intros [A B] [A' B']. split; [eapply computable_trans; eauto|].
  rewrite Forall_forall in *. intros z Z. eapply deep_trans; [|apply B'; auto]. now apply Forall_forall.
Qed.
Lemma made_sub x c s ys zs : (forall z, In z zs -> fixed z \/ In z ys) -> made x c s ys -> made x c s zs.
Proof.
  intros H [A B]. split; [eapply computable_sub; eauto|]. rewrite Forall_forall in *. intros z Z.
  destruct (H z Z); [now apply deep_free; left|auto].
Qed.
Lemma made_le x c s c' s' ys : c <= c' -> s <= s' -> made x c s ys -> made x c' s' ys.
Proof. intros C S [A B]. split; [eapply computable_le; eauto|]. eapply Forall_impl; [|exact B]. intros e. now apply deep_mono. Qed.
Lemma made_from x x' c s ys : (forall e, In e x -> fixed e \/ In e x') -> made x c s ys -> made x' c s ys.
Proof. intros H [A B]. split; [eapply computable_from; eauto|]. eapply Forall_impl; [|exact B]. intros e. now apply deep_from. Qed.
Lemma made_app x c c' s ys zs : made x c s ys -> made x c' s zs -> made x (c + c') s (ys ++ zs).
Proof. intros [A B] [A' B']. split; [now apply computable_app|now apply Forall_app]. Qed.
Lemma made_flat {A} x (l : list A) Y c s : (forall a, In a l -> made x (c a) s (Y a)) -> made x (list_sum (map c l)) s (flat_map Y l).
Proof.
  intros H. split; [apply computable_flat; intros; now apply H|]. apply Forall_forall. intros y Y'.
  apply in_flat_map in Y' as (a & Ha & Hy). destruct (H a Ha) as [_ F]. rewrite Forall_forall in F. auto.
Qed.
Lemma made_flat_const {A} x (l : list A) Y c s : (forall a, In a l -> made x c s (Y a)) -> made x (length l * c) s (flat_map Y l).
Proof. intros H. rewrite <- (list_sum_const l). now apply (made_flat x l Y (fun _ => c)). Qed.
Lemma made_free x ys : (forall y, In y ys -> fixed y \/ In y x) -> made x 0 0 ys.
Proof. intros H. split; [now apply computable_free|]. apply Forall_forall. intros y Y. now apply deep_free, H. Qed.
Lemma made_self x : made x 0 0 x.
Proof. apply made_free. auto. Qed.
Lemma made_pattern k x c n es : k <= length x -> (forall j, k <= j -> fixed (nth j x Zero)) -> pattern k c n es = true ->
  made (firstn k x) c n (map (eval x) es).
Proof. intros A B P. exact (pattern_ok k x A B c n es P). Qed.

Lemma in_slice {A} (l : list A) a n e : In e (slice l a n) -> In e l.
Proof.
  unfold slice. intros H. rewrite <- (firstn_skipn a l), in_app_iff. right. rewrite <- (firstn_skipn n (skipn a l)), in_app_iff. now left.
Qed.
Lemma chunks_made n m f c s (x : list expr) : 0 < n -> length x = m * n -> cheap f n c s -> made x (m * c) s (map_chunks n f x).
Proof.
  intros Hn Lx C. unfold map_chunks. rewrite Lx, Nat.div_mul by lia. rewrite <- (seq_length m 0) at 1. apply made_flat_const.
  intros i Hi. apply in_seq in Hi. destruct (C (slice x (i * n) n)) as (_ & A & B).
  - apply slice_length. rewrite Lx. nia.
  - apply (made_from (slice x (i * n) n)); [|now split]. intros e E. right. now apply in_slice in E.
Qed.
Lemma half_rev_made k h (x : list expr) : made x 0 0 (half_rev k h x).
Proof.
  apply made_free. intros y Y. unfold half_rev, tab in Y. apply in_flat_map in Y as (r & _ & Y). apply in_map_iff in Y as (c & <- & _).
  apply (nth_known x).
Qed.
Lemma col_free k h (buf : list expr) c e : In e (col k h buf c) -> fixed e \/ In e buf.
Proof. unfold col. intros E. apply in_map_iff in E as (r & <- & _). apply (nth_known buf). Qed.

(** columns by pairs *)
Lemma cols_made {A} k h bfp (pairp : A -> list expr -> list expr -> list expr * list expr) tw b P s (buf : list expr) :
  (forall x, length x = k -> made x b s (bfp x)) ->
  (forall c f r, length f = k -> length r = k -> made (f ++ r) P s (fst (pairp (tw c) f r) ++ snd (pairp (tw c) f r))) ->
  made buf (b + P * (h / 2)) s (cols_fun k h bfp pairp tw buf).
Proof.
  intros Hb Hp.
  set (X := bfp (col k h buf 0)).
  set (Y c := fst (pairp (tw c) (col k h buf c) (col k h buf (h - c))) ++ snd (pairp (tw c) (col k h buf c) (col k h buf (h - c)))).
  apply (made_sub buf _ _ (X ++ flat_map Y (seq 1 (h / 2)))).
  - intros z Z. unfold cols_fun, tab in Z. apply in_flat_map in Z as (r & _ & Z). apply in_map_iff in Z as (c & <- & Hc). apply in_seq in Hc.
    unfold cols_cell.
    assert (K : forall l, (forall e, In e l -> In e (X ++ flat_map Y (seq 1 (h / 2)))) ->
      fixed (nth r l nzero) \/ In (nth r l nzero) (X ++ flat_map Y (seq 1 (h / 2)))).
    { intros l Hl. destruct (nth_known l r); auto. }
    pose proof (Nat.div_mod h 2 ltac:(lia)). pose proof (Nat.mod_upper_bound h 2 ltac:(lia)).
    destruct (Nat.eqb_spec c 0); [apply K; intros; apply in_app_iff; now left|].
    destruct (Nat.ltb_spec (2 * c) h); apply K; intros e E; apply in_app_iff; right; apply in_flat_map.
    + exists c. split; [apply in_seq; lia|]. apply in_app_iff. now left.
    + exists (h - c). split; [apply in_seq; lia|]. apply in_app_iff. right. replace (h - (h - c)) with c by lia. exact E.
  - apply made_app.
    + apply (made_from (col k h buf 0)); [apply col_free|]. apply Hb. apply col_length.
    + rewrite Nat.mul_comm. rewrite <- (seq_length (h / 2) 1) at 1. apply made_flat_const. intros c _.
      eapply made_from; [|apply Hp; apply col_length]. intros e E. apply in_app_iff in E as [E|E]; eapply col_free; eauto.
Qed.
Lemma nxn_cheap k (d : Dht expr) fi c s applyp b P s' : 0 < dht_len d -> cheap fi (dht_len d) c s ->
  (forall x, length (applyp x) = k * dht_len d) ->
  (forall buf, made buf (b + P * (dht_len d / 2)) s' (applyp buf)) ->
  cheap (nxn_fun k d fi applyp) (k * dht_len d) (k * c + b + P * (dht_len d / 2)) (s + s').
Proof.
  intros Hd C L A x Lx. split; [apply L|].
  assert (M : made x (0 + k * c + (b + P * (dht_len d / 2))) (0 + s + s') (nxn_fun k d fi applyp x)).
  { unfold nxn_fun. eapply made_trans; [|apply A]. eapply made_trans; [apply half_rev_made|]. apply chunks_made; auto. apply half_rev_length. }
  eapply made_le in M; [exact M|lia|lia].
Qed.

(** ** butterflies *)
Ltac fly f n c s :=
  let x := fresh "x" in let Lx := fresh in
  intros x Lx; list_of n x Lx;
  match goal with |- length (f ?x) = _ /\ _ =>
    let p := eval vm_compute in (f (map Var (seq 0 n))) in
    change (f x) with (map (eval x) p); split; [reflexivity|apply (pattern_all x c s p); vm_compute; reflexivity]
  end.
Lemma bf2_cheap : cheap (bf_fun bf2_contig) 2 2 1. Proof. fly (bf_fun (T := expr) bf2_contig) 2 2 1. Qed.
Lemma bf3_cheap : cheap (bf_fun (bf3_contig bf3_new)) 3 8 4. Proof. fly (bf_fun (T := expr) (bf3_contig bf3_new)) 3 8 4. Qed.
Lemma bf4_cheap : cheap (bf_fun bf4_contig) 4 8 2. Proof. fly (bf_fun (T := expr) bf4_contig) 4 8 2. Qed.
Lemma bf5_cheap : cheap (bf_fun (bf5_contig bf5_new)) 5 24 5. Proof. fly (bf_fun (T := expr) (bf5_contig bf5_new)) 5 24 5. Qed.
Lemma bf6_cheap : cheap (bf_fun (bf6_contig bf3_new)) 6 28 7. Proof. fly (bf_fun (T := expr) (bf6_contig bf3_new)) 6 28 7. Qed.
Lemma bf8_cheap : cheap (bf_fun (bf8_contig bf8_new)) 8 24 3. Proof. fly (bf_fun (T := expr) (bf8_contig bf8_new)) 8 24 3. Qed.
Lemma bf9_cheap : cheap (bf_fun (bf9_contig bf9_new)) 9 56 10. Proof. fly (bf_fun (T := expr) (bf9_contig bf9_new)) 9 56 10. Qed.
Lemma bf16_cheap : cheap (bf_fun (bf16_contig bf16_new)) 16 76 6. Proof. fly (bf_fun (T := expr) (bf16_contig bf16_new)) 16 76 6. Qed.

(** ** 2xn and 4xn *)
Lemma two_pair (tw : cplx expr) f r : fixed (re tw) -> fixed (im tw) -> length f = 2 -> length r = 2 ->
  made (f ++ r) 10 3 (fst (radix2_pairp tw f r) ++ snd (radix2_pairp tw f r)).
Proof.
  destruct tw as [a b]. cbn [re im]. intros Fa Fb Lf Lr. list_of 2 f Lf. list_of 2 r Lr.
  match goal with |- made _ _ _ (fst (radix2_pairp _ [?e;?e0] [?e1;?e2]) ++ _) =>
    let p := eval vm_compute in (fst (radix2_pairp (Cplx (Var 4) (Var 5)) [Var 0; Var 1] [Var 2; Var 3]) ++ snd (radix2_pairp (Cplx (Var 4) (Var 5)) [Var 0; Var 1] [Var 2; Var 3])) in
    change (fst (radix2_pairp (Cplx a b) [e;e0] [e1;e2]) ++ snd (radix2_pairp (Cplx a b) [e;e0] [e1;e2])) with (map (eval [e;e0;e1;e2;a;b]) p);
    apply (made_pattern 4 [e;e0;e1;e2;a;b] 10 3 p); [simpl; lia| |vm_compute; reflexivity]
  end.
  intros j Hj. do 4 (destruct j as [|j]; [lia|]). do 2 (destruct j as [|j]; [assumption|]). destruct j; exact Logic.I.
Qed.
Lemma four_pair (t1 t2 : cplx expr) f r : fixed (re t1) -> fixed (im t1) -> fixed (re t2) -> fixed (im t2) -> length f = 4 -> length r = 4 ->
  made (f ++ r) 34 4 (fst (radix4_pairp [t1; t2] f r) ++ snd (radix4_pairp [t1; t2] f r)).
Proof.
  destruct t1 as [a b], t2 as [a' b']. cbn [re im]. intros Fa Fb Fa' Fb' Lf Lr. list_of 4 f Lf. list_of 4 r Lr.
  match goal with |- made _ _ _ (fst (radix4_pairp ?t [?e;?e0;?e1;?e2] [?e3;?e4;?e5;?e6]) ++ _) =>
    let q := constr:(radix4_pairp [Cplx (Var 8) (Var 9); Cplx (Var 10) (Var 11)] [Var 0; Var 1; Var 2; Var 3] [Var 4; Var 5; Var 6; Var 7]) in
    let p := eval vm_compute in (fst q ++ snd q) in
    change (fst (radix4_pairp t [e;e0;e1;e2] [e3;e4;e5;e6]) ++ snd (radix4_pairp t [e;e0;e1;e2] [e3;e4;e5;e6])) with (map (eval [e;e0;e1;e2;e3;e4;e5;e6;a;b;a';b']) p);
    apply (made_pattern 8 [e;e0;e1;e2;e3;e4;e5;e6;a;b;a';b'] 34 4 p); [simpl; lia| |vm_compute; reflexivity]
  end.
  intros j Hj. do 8 (destruct j as [|j]; [lia|]). do 4 (destruct j as [|j]; [assumption|]). destruct j; exact Logic.I.
Qed.
Lemma inverse_fixed i n : fixed (re (@compute_dft_twiddle_inverse expr Num_expr i n)) /\ fixed (im (@compute_dft_twiddle_inverse expr Num_expr i n)).
Proof. unfold compute_dft_twiddle_inverse; simpl; auto. Qed.
Lemma tw8_fixed w h r c : fixed (re (@tw8 expr Num_expr w h r c)) /\ fixed (im (@tw8 expr Num_expr w h r c)).
Proof. unfold tw8. pose proof (inverse_fixed (r * c * 8 + w * h) (w * h * 8)). simpl. tauto. Qed.
Lemma two_cheap (d : Dht expr) fi c s : 0 < dht_len d -> cheap fi (dht_len d) c s ->
  cheap (radix2_fun d fi) (2 * dht_len d) (2 * c + 2 + 10 * (dht_len d / 2)) (s + 3).
Proof.
  intros Hd C. apply nxn_cheap; auto; [intros; apply cols_fun_length|]. intros buf. apply cols_made.
  - intros x Lx. destruct (bf2_cheap x Lx) as (_ & A & B). eapply made_le; [apply le_n| |split; eauto]. lia.
  - intros k f r. apply two_pair; exact Logic.I.
Qed.
Lemma four_cheap (d : Dht expr) fi c s : 0 < dht_len d -> cheap fi (dht_len d) c s ->
  cheap (radix4_fun d fi) (4 * dht_len d) (4 * c + 8 + 34 * (dht_len d / 2)) (s + 4).
Proof.
  intros Hd C. apply nxn_cheap; auto; [intros; apply cols_fun_length|]. intros buf. apply cols_made.
  - intros x Lx. destruct (bf4_cheap x Lx) as (_ & A & B). eapply made_le; [apply le_n| |split; eauto]. lia.
  - intros k f r. apply four_pair; exact Logic.I.
Qed.

(** ** MixedRadix *)
Definition cell_pattern : list expr :=
  let re := Var 4 in let im := Var 5 in let a := Var 0 in let b := Var 1 in let c := Var 2 in let d := Var 3 in
  [ Minus (Times re (Plus a b)) (Times im (Minus c d)); Minus (Times re (Plus c d)) (Times im (Minus a b));
    Plus (Times re (Minus c d)) (Times im (Plus a b)); Plus (Times re (Minus a b)) (Times im (Plus c d)) ].
Definition mid_pattern : list expr :=
  let re := Var 2 in let im := Var 3 in let a := Var 0 in let b := Var 1 in
  [ Plus (Times re (Minus a b)) (Times im (Plus a b)); Minus (Times re (Plus a b)) (Times im (Minus a b)) ].
Definition cell (W : nat) (tw : nat -> cplx expr) (f v : list expr) (r : nat) : list expr :=
  if 2 * r <? W then [mixed_fwd W tw f v r; mixed_rev W tw f v r; mixed_fwd W tw f v (W - r); mixed_rev W tw f v (W - r)]
  else [mixed_fwd W tw f v r; mixed_rev W tw f v r].
Lemma cell_made W tw f v r : (forall r, fixed (re (tw r)) /\ fixed (im (tw r))) -> 0 < r -> 2 * r <= W ->
  made (f ++ v) (if 2 * r <? W then 16 else 8) 3 (cell W tw f v r).
Proof.
  intros F Hr Hw. destruct (F r) as [F1 F2]. unfold cell. destruct (Nat.ltb_spec (2 * r) W).
  - set (x := [nth r f Zero; nth (W - r) v Zero; nth (W - r) f Zero; nth r v Zero; re (tw r); im (tw r)]).
    replace [mixed_fwd W tw f v r; mixed_rev W tw f v r; mixed_fwd W tw f v (W - r); mixed_rev W tw f v (W - r)] with (map (eval x) cell_pattern).
    + apply (made_from (firstn 4 x)).
      * unfold x. simpl firstn. intros e E.
        assert (K : forall i l, (l = f \/ l = v) -> fixed (nth i l Zero) \/ In (nth i l Zero) (f ++ v)).
        { intros i l Hl. rewrite in_app_iff. destruct (nth_known l i); auto. destruct Hl; subst; auto. }
        simpl in E. decompose [or] E; subst; auto; contradiction.
      * apply (made_pattern 4 x); [simpl; lia| |reflexivity].
        intros j Hj. unfold x. do 4 (destruct j as [|j]; [lia|]). do 2 (destruct j as [|j]; [assumption|]). destruct j; exact Logic.I.
    + unfold mixed_fwd, mixed_rev.
      destruct (Nat.eqb_spec r 0); [lia|]. destruct (Nat.eqb_spec (W - r) 0); [lia|].
      destruct (Nat.ltb_spec (2 * r) W); [|lia]. destruct (Nat.ltb_spec (2 * (W - r)) W); [lia|].
      destruct (Nat.eqb_spec (2 * (W - r)) W); [lia|]. replace (W - (W - r)) with r by lia. reflexivity.
  - set (x := [nth r f Zero; nth r v Zero; re (tw r); im (tw r)]).
    replace [mixed_fwd W tw f v r; mixed_rev W tw f v r] with (map (eval x) mid_pattern).
    + apply (made_from (firstn 2 x)).
      * unfold x. simpl firstn. intros e E.
        assert (K : forall i l, (l = f \/ l = v) -> fixed (nth i l Zero) \/ In (nth i l Zero) (f ++ v)).
        { intros i l Hl. rewrite in_app_iff. destruct (nth_known l i); auto. destruct Hl; subst; auto. }
        simpl in E. decompose [or] E; subst; auto; contradiction.
      * apply (made_pattern 2 x); [simpl; lia| |reflexivity].
        intros j Hj. unfold x. do 2 (destruct j as [|j]; [lia|]). do 2 (destruct j as [|j]; [assumption|]). destruct j; exact Logic.I.
    + unfold mixed_fwd, mixed_rev.
      destruct (Nat.eqb_spec r 0); [lia|]. destruct (Nat.ltb_spec (2 * r) W); [lia|].
      destruct (Nat.eqb_spec (2 * r) W); [|lia]. reflexivity.
Qed.
Lemma cells_sum W : list_sum (map (fun r => if 2 * r <? W then 16 else 8) (seq 1 (W / 2))) <= 8 * (W - 1).
Proof.
  assert (H : forall n, 2 * n < W -> list_sum (map (fun r => if 2 * r <? W then 16 else 8) (seq 1 n)) <= 16 * n).
  { induction n; intros Hn; [simpl; lia|]. rewrite seq_S, map_app, list_sum_app. cbn [map list_sum fold_right].
    destruct (2 * (1 + n) <? W); specialize (IHn ltac:(lia)); lia. }
  pose proof (Nat.div_mod W 2 ltac:(lia)) as D. pose proof (Nat.mod_upper_bound W 2 ltac:(lia)) as M.
  destruct (Nat.eq_dec (W mod 2) 1) as [E|E].
  - specialize (H (W / 2) ltac:(lia)). lia.
  - destruct (W / 2) as [|n] eqn:Q; [simpl; lia|]. rewrite seq_S, map_app, list_sum_app. cbn [map list_sum fold_right].
    specialize (H n ltac:(lia)). destruct (Nat.ltb_spec (2 * (1 + n)) W); lia.
Qed.
Lemma column_made W tw f v : (forall r, fixed (re (tw r)) /\ fixed (im (tw r))) ->
  made (f ++ v) (8 * (W - 1)) 3 (map (mixed_fwd W tw f v) (seq 0 W) ++ map (mixed_rev W tw f v) (seq 0 W)).
Proof.
  intros F. apply (made_sub _ _ _ ((f ++ v) ++ flat_map (cell W tw f v) (seq 1 (W / 2)))).
  - intros z Z. rewrite in_app_iff in Z. pose proof (Nat.div_mod W 2 ltac:(lia)). pose proof (Nat.mod_upper_bound W 2 ltac:(lia)).
    assert (K : forall r, r < W -> 0 < r -> In (mixed_fwd W tw f v r) (flat_map (cell W tw f v) (seq 1 (W / 2))) /\ In (mixed_rev W tw f v r) (flat_map (cell W tw f v) (seq 1 (W / 2)))).
    { intros r Hr Hp. destruct (le_lt_dec (2 * r) W).
      - split; apply in_flat_map; exists r; (split; [apply in_seq; lia|]); unfold cell; destruct (2 * r <? W); simpl; auto.
      - split; apply in_flat_map; exists (W - r); (split; [apply in_seq; lia|]); unfold cell; destruct (Nat.ltb_spec (2 * (W - r)) W); try lia;
          replace (W - (W - r)) with r by lia; simpl; auto. }
    rewrite !in_app_iff.
    destruct Z as [Z|Z]; apply in_map_iff in Z as (r & <- & Hr); apply in_seq in Hr; (destruct r as [|r]; [|right; right; apply K; lia]).
    + change (mixed_fwd W tw f v 0) with (nth 0 f Zero). destruct (nth_known f 0); auto.
    + change (mixed_rev W tw f v 0) with (nth 0 v Zero). destruct (nth_known v 0); auto.
  - apply (made_le _ (0 + list_sum (map (fun r => if 2 * r <? W then 16 else 8) (seq 1 (W / 2)))) 3); [|lia|].
    + pose proof (cells_sum W). lia.
    + apply made_app; [apply (made_le _ 0 0); [lia|lia|apply made_self]|]. apply made_flat. intros r Hr. apply in_seq in Hr.
      pose proof (Nat.div_mod W 2 ltac:(lia)). apply cell_made; auto; lia.
Qed.
Lemma mixed_cheap (dw dh : Dht expr) fw fh cw sw ch sh : 0 < dht_len dw -> 0 < dht_len dh ->
  cheap fw (dht_len dw) cw sw -> cheap fh (dht_len dh) ch sh ->
  cheap (mixed_fun dw dh fw fh) (dht_len dw * dht_len dh) (mixed_ops (dht_len dw) cw (dht_len dh) ch) (mixed_path (dht_len dw) sw (dht_len dh) sh).
Proof.
  intros Hw Hh Cw Ch x Lx. unfold mixed_fun. set (W := dht_len dw) in *. set (H := dht_len dh) in *.
  split; [apply cols_fun_length|]. unfold mixed_ops, mixed_path. set (tz := if ((W <=? 1) || (H <=? 1))%bool then 0 else 3).
  set (buf := map_chunks H fh (half_rev W H x)).
  assert (M0 : made x (0 + W * ch) (0 + sh) buf).
  { eapply made_trans; [apply half_rev_made|]. apply chunks_made; auto. apply half_rev_length. }
  set (tw := fun c r => @tw8 expr Num_expr W H r c).
  set (pre c := if c =? 0 then col W H buf 0 else if 2 * c <? H then map (mixed_fwd W (tw c) (col W H buf c) (col W H buf (H - c))) (seq 0 W)
    else map (mixed_rev W (tw (H - c)) (col W H buf (H - c)) (col W H buf c)) (seq 0 W)).
  assert (Lp : forall c, length (pre c) = W).
  { intros c. unfold pre. destruct (c =? 0); [apply col_length|]. destruct (2 * c <? H); now rewrite map_length, seq_length. }
  assert (M1 : made buf (8 * (W - 1) * (H / 2)) tz (flat_map pre (seq 0 H))).
  { subst tz. destruct ((W <=? 1) || (H <=? 1))%bool eqn:Tz.
    { apply (made_le _ 0 0); [apply Nat.le_0_l|apply le_n|]. apply made_free. intros z Z. apply in_flat_map in Z as (c & Hc & Z). apply in_seq in Hc. unfold pre in Z.
      destruct (Nat.eqb_spec c 0); [now apply col_free in Z|]. apply orb_true_iff in Tz. rewrite !Nat.leb_le in Tz.
      replace (seq 0 W) with [0] in Z by (destruct Tz; [destruct W as [|[|]]; [lia|reflexivity|lia]|lia]).
      destruct (2 * c <? H); destruct Z as [<-|[]]; match goal with |- fixed ?e \/ _ => 
        first [change e with (nth 0 (col W H buf c) Zero)|change e with (nth 0 (col W H buf (H - c)) Zero)] end;
        match goal with |- fixed (nth 0 ?l Zero) \/ _ => destruct (nth_known l 0) as [F|F]; [now left|now apply col_free in F] end. }
    set (Y c := map (mixed_fwd W (tw c) (col W H buf c) (col W H buf (H - c))) (seq 0 W) ++ map (mixed_rev W (tw c) (col W H buf c) (col W H buf (H - c))) (seq 0 W)).
    apply (made_sub _ _ _ (buf ++ flat_map Y (seq 1 (H / 2)))).
    - intros z Z. apply in_flat_map in Z as (c & Hc & Z). apply in_seq in Hc. unfold pre in Z.
      pose proof (Nat.div_mod H 2 ltac:(lia)). pose proof (Nat.mod_upper_bound H 2 ltac:(lia)). rewrite in_app_iff.
      destruct (Nat.eqb_spec c 0). { apply col_free in Z. tauto. }
      right; right. apply in_flat_map. destruct (Nat.ltb_spec (2 * c) H).
      + exists c. split; [apply in_seq; lia|]. apply in_app_iff. now left.
      + exists (H - c). split; [apply in_seq; lia|]. apply in_app_iff. right. replace (H - (H - c)) with c by lia. exact Z.
    - change (8 * (W - 1) * (H / 2)) with (0 + 8 * (W - 1) * (H / 2)). apply made_app; [apply (made_le _ 0 0); [lia|lia|apply made_self]|].
      rewrite Nat.mul_comm. rewrite <- (seq_length (H / 2) 1) at 1. apply made_flat_const. intros c _.
      eapply made_from; [|apply column_made; intros r; apply tw8_fixed]. intros e E. apply in_app_iff in E as [E|E]; eapply col_free; eauto. }
  assert (M2 : made (flat_map pre (seq 0 H)) (H * cw) sw (flat_map (fun c => fw (pre c)) (seq 0 H))).
  { rewrite <- (seq_length H 0) at 2. apply made_flat_const. intros c Hc. destruct (Cw (pre c) (Lp c)) as (_ & A & B).
    apply (made_from (pre c)); [|now split]. intros e E. right. apply in_flat_map. eauto. }
  pose proof (made_trans _ _ _ _ _ _ _ (made_trans _ _ _ _ _ _ _ M0 M1) M2) as M.
  rewrite !Nat.add_0_l in M. eapply made_sub; [|exact M].
  intros z Z. unfold cols_fun, tab in Z. apply in_flat_map in Z as (r & _ & Z). apply in_map_iff in Z as (c & <- & Hc).
  assert (K : forall l, (forall e, In e l -> In e (fw (pre c))) -> fixed (nth r l nzero) \/ In (nth r l nzero) (flat_map (fun c => fw (pre c)) (seq 0 H))).
  { intros l Hl. destruct (nth_known l r); auto. right. apply in_flat_map. eauto. }
  unfold cols_cell, mixed_pairp. cbn [fst snd]. unfold pre in K. fold (tw c) (tw (H - c)).
  destruct (Nat.eqb_spec c 0) as [->|]; [apply K; auto|]. destruct (2 * c <? H); apply K; auto. intros e E. now apply in_rev.
Qed.

(** ** SplitRadix *)
Lemma made_op x s (e : expr) : operation x [] e -> deep x s e -> made x 1 s [e].
Proof.
  intros H D. split; [|constructor; [exact D|constructor]]. exists [e]. split; [simpl; lia|]. split; (constructor; [|constructor]).
  - eapply operation_mono; [|exact H]. intros z [].
  - right. right. now left.
Qed.
Lemma known_operand x e : fixed e \/ In e x -> operand x [] e.
Proof. intros [H|H]; [now left|right; now left]. Qed.
Lemma made_plus x a b : fixed a \/ In a x -> fixed b \/ In b x -> made x 1 1 [Plus a b].
Proof. intros A B. apply made_op; [split; now apply known_operand|]. apply deep_plus; now apply deep_free. Qed.
Lemma made_minus x a b : fixed a \/ In a x -> fixed b \/ In b x -> made x 1 1 [Minus a b].
Proof. intros A B. apply made_op; [split; now apply known_operand|]. apply deep_minus; now apply deep_free. Qed.
Lemma made_times x a b : fixed a \/ In a x -> fixed b \/ In b x -> made x 1 1 [Times a b].
Proof. intros A B. apply made_op; [split; now apply known_operand|]. apply deep_times; now apply deep_free. Qed.
Lemma made_map {A} x (l : list A) g c s : (forall a, In a l -> made x c s [g a]) -> made x (length l * c) s (map g l).
Proof.
  intros H. replace (map g l) with (flat_map (fun a => [g a]) l); [now apply made_flat_const|].
  clear. induction l; simpl; congruence.
Qed.
Lemma made_map_sum {A} x (l : list A) g c s : (forall a, In a l -> made x (c a) s [g a]) -> made x (list_sum (map c l)) s (map g l).
Proof.
  intros H. replace (map g l) with (flat_map (fun a => [g a]) l); [now apply made_flat|]. clear. induction l; simpl; congruence.
Qed.
Lemma made_two x a b c d e : In a x -> In b x -> fixed c -> fixed d ->
  In e [Minus (Times a c) (Times b d); Plus (Times a c) (Times b d)] \/ In e [Minus (Times c a) (Times d b); Plus (Times c a) (Times d b)] ->
  made x 3 2 [e].
Proof.
  intros A B C D E. apply (made_from (firstn 2 [a; b; c; d])).
  { simpl. intros z [<-|[<-|[]]]; auto. }
  assert (R : forall p, pattern 2 3 2 [p] = true -> e = eval [a; b; c; d] p -> made (firstn 2 [a; b; c; d]) 3 2 [e]).
  { intros p P ->. apply (made_pattern 2 [a; b; c; d] 3 2 [p]); [simpl; lia| |exact P].
    intros j Hj. do 2 (destruct j as [|j]; [lia|]). do 2 (destruct j as [|j]; [assumption|]). destruct j; exact Logic.I. }
  destruct E as [[<-|[<-|[]]]|[<-|[<-|[]]]].
  - apply (R (Minus (Times (Var 0) (Var 2)) (Times (Var 1) (Var 3)))); reflexivity.
  - apply (R (Plus (Times (Var 0) (Var 2)) (Times (Var 1) (Var 3)))); reflexivity.
  - apply (R (Minus (Times (Var 2) (Var 0)) (Times (Var 3) (Var 1)))); reflexivity.
  - apply (R (Plus (Times (Var 2) (Var 0)) (Times (Var 3) (Var 1)))); reflexivity.
Qed.
Lemma split_cheap q fq fh cq sq ch sh : 0 < q -> cheap fq q cq sq -> cheap fh (q * 2) ch sh ->
  cheap (split_fun q fq fh) (q * 4) (ch + 2 * cq + 12 * q) (Nat.max (1 + sh) (4 + sq)).
Proof.
  intros Hq Cq Ch x Lx. split; [apply tab_length|].
  assert (Le : length (split_evens q x) = q * 2) by (unfold split_evens; now rewrite map_length, seq_length).
  assert (L1 : length (split_q1 q x) = q) by (unfold split_q1; now rewrite map_length, seq_length).
  assert (L3 : length (split_q3 q x) = q) by (unfold split_q3; now rewrite map_length, seq_length).
  assert (ME : made x (q * 2 * 1) 1 (split_evens q x)).
  { unfold split_evens. rewrite <- (seq_length (q * 2) 0) at 1. apply made_map. intros i _. apply made_plus; apply nth_known. }
  set (a := split_diff0 q x). set (b := split_diff1 q x).
  set (D := map a (seq 0 q) ++ map b (seq 0 q)).
  assert (MD : made x (q * 1 + q * 1) 1 D).
  { apply made_app; rewrite <- (seq_length q 0) at 1; apply made_map; intros i _; apply made_minus; apply nth_known. }
  assert (Ia : forall i, i < q -> In (a i) D) by (intros; apply in_app_iff; left; apply in_map, in_seq; lia).
  assert (Ib : forall i, i < q -> In (b i) D) by (intros; apply in_app_iff; right; apply in_map, in_seq; lia).
  set (Y c := [Plus (a c) (a (q - c)); Minus (a c) (a (q - c)); Minus (b c) (b (q - c)); Plus (b c) (b (q - c))]).
  set (S := flat_map Y (seq 1 (q / 2))).
  pose proof (Nat.div_mod q 2 ltac:(lia)) as Dq. pose proof (Nat.mod_upper_bound q 2 ltac:(lia)) as Mq.
  assert (MS : made D (0 + q / 2 * 4) 1 (D ++ S)).
  { apply made_app; [apply (made_le _ 0 0); [lia|lia|apply made_self]|]. rewrite <- (seq_length (q / 2) 1) at 1. apply made_flat_const.
    intros c Hc. apply in_seq in Hc.
    change (Y c) with ([Plus (a c) (a (q - c))] ++ [Minus (a c) (a (q - c))] ++ [Minus (b c) (b (q - c))] ++ [Plus (b c) (b (q - c))]).
    change 4 with (1 + (1 + (1 + 1))).
    repeat apply made_app; first [apply made_plus|apply made_minus]; right; first [apply Ia|apply Ib]; lia. }
  assert (IS : forall c, c < q -> c <> 0 -> exists k, (k = if 2 * c <? q then c else q - c) /\ forall e, In e (Y k) -> In e (D ++ S)).
  { intros c Hc H0. eexists. split; [reflexivity|]. intros e E. apply in_app_iff. right. apply in_flat_map. eexists. split; [|exact E].
    apply in_seq. destruct (Nat.ltb_spec (2 * c) q); lia. }
  assert (M1 : made (D ++ S) (q * 3) 2 (split_q1 q x)).
  { unfold split_q1. rewrite <- (seq_length q 0) at 1. apply made_map. intros c Hc. apply in_seq in Hc. fold a b. unfold split_odd1.
    destruct (Nat.eqb_spec c 0) as [->|N].
    - apply (made_le _ 1 1); [lia|lia|]. apply made_plus; right; apply in_app_iff; left; [apply Ia|apply Ib]; lia.
    - destruct (IS c ltac:(lia) N) as (k & -> & K). destruct (Nat.ltb_spec (2 * c) q).
      + eapply made_two; [apply K; left; reflexivity|apply K; right; right; left; reflexivity| | |left; left; reflexivity]; exact Logic.I.
      + replace (a c) with (a (q - (q - c))) by (f_equal; lia). replace (b c) with (b (q - (q - c))) by (f_equal; lia).
        eapply made_two; [apply K; left; reflexivity|apply K; right; right; left; reflexivity| | |left; right; left; reflexivity]; exact Logic.I. }
  assert (M3 : made (D ++ S) (q * 3) 2 (split_q3 q x)).
  { unfold split_q3. rewrite <- (seq_length q 0) at 1. apply made_map. intros c Hc. apply in_seq in Hc. fold a b. unfold split_odd3.
    destruct (Nat.eqb_spec c 0) as [->|N].
    - apply (made_le _ 1 1); [lia|lia|]. apply made_minus; right; apply in_app_iff; left; [apply Ia|apply Ib]; lia.
    - destruct (IS c ltac:(lia) N) as (k & -> & K). destruct (Nat.ltb_spec (2 * c) q).
      + eapply made_two; [apply K; right; left; reflexivity|apply K; right; right; right; left; reflexivity| | |left; right; left; reflexivity]; exact Logic.I.
      + replace (a c) with (a (q - (q - c))) by (f_equal; lia). replace (b c) with (b (q - (q - c))) by (f_equal; lia).
        eapply made_two; [apply K; right; left; reflexivity|apply K; right; right; right; left; reflexivity| | |left; left; reflexivity]; exact Logic.I. }
  destruct (Ch _ Le) as (_ & Ae & Be). destruct (Cq _ L1) as (_ & A1 & B1). destruct (Cq _ L3) as (_ & A3 & B3).
  pose proof (made_trans _ _ _ _ _ _ _ ME (conj Ae Be)) as PE.
  assert (P13 : made (split_q1 q x ++ split_q3 q x) (cq + cq) sq (fq (split_q1 q x) ++ fq (split_q3 q x))).
  { apply made_app; [apply (made_from (split_q1 q x))|apply (made_from (split_q3 q x))]; try (split; assumption);
      intros e E; right; apply in_app_iff; auto. }
  pose proof (made_trans _ _ _ _ _ _ _ (made_trans _ _ _ _ _ _ _ MD (made_trans _ _ _ _ _ _ _ MS (made_app _ _ _ _ _ _ M1 M3))) P13) as PO.
  assert (P : made x (ch + 2 * cq + 12 * q) (Nat.max (1 + sh) (4 + sq)) (fh (split_evens q x) ++ fq (split_q1 q x) ++ fq (split_q3 q x))).
  { eapply made_le; [|apply le_n|]; [|apply made_app; [eapply made_le; [apply le_n| |exact PE]|eapply made_le; [apply le_n| |exact PO]]; lia]. lia. }
  eapply made_sub; [|exact P]. intros z Z. unfold split_fun, interleave, tab in Z. apply in_flat_map in Z as (i & _ & Z).
  apply in_map_iff in Z as (j & <- & _). rewrite !in_app_iff.
  destruct j as [|[|[|j]]]; match goal with |- fixed (nth ?i ?l _) \/ _ => destruct (nth_known l i); auto end.
Qed.

(** ** Rader *)
Lemma deep_fixed x n e : deep x n e -> Forall fixed x -> fixed e.
Proof. intros D F. rewrite Forall_forall in F. induction D; simpl; auto. destruct H; auto. Qed.
Lemma nth_fixed l i : Forall fixed l -> fixed (nth i l Zero).
Proof. intros F. rewrite Forall_forall in F. destruct (nth_known l i); auto. Qed.
Lemma table_fixed p (B : list expr) i : Forall fixed B ->
  fixed (re (nth i (raders_table p B) (Cplx nzero nzero))) /\ fixed (im (nth i (raders_table p B) (Cplx nzero nzero))).
Proof.
  intros F. unfold raders_table. set (g := fun i => _). set (l := seq 0 _).
  destruct (lt_dec i (length l)) as [L|L].
  - rewrite (nth_indep _ _ (g 0)) by (now rewrite map_length). rewrite (map_nth g l 0). unfold g. cbv zeta.
    destruct (nth i l 0 =? 0); [split; [now apply nth_fixed|exact Logic.I]|].
    destruct (2 * nth i l 0 <? p - 1); cbn [re im]; [|split; [now apply nth_fixed|exact Logic.I]].
    split; (split; [split; now apply nth_fixed|exact Logic.I]).
  - rewrite nth_overflow by (rewrite map_length; lia). split; exact Logic.I.
Qed.
Lemma rader_cheap p r s fi c d : 3 <= p -> cheap fi (p - 1) c d ->
  cheap (raders_fun p r s (raders_table p (fi (raders_input p s))) fi) p (2 * c + 3 * (p - 1)) (d + 2 + d).
Proof.
  intros Hp C x Lx. set (tws := raders_table p _).
  assert (FT : forall i, fixed (re (nth i tws (Cplx nzero nzero))) /\ fixed (im (nth i tws (Cplx nzero nzero)))).
  { intros i. apply table_fixed. assert (Li : length (raders_input (T := expr) p s) = p - 1) by (unfold raders_input; now rewrite map_length, seq_length).
    destruct (C _ Li) as (_ & _ & D). eapply Forall_impl; [|exact D]. intros e E. eapply deep_fixed; [exact E|].
    apply Forall_forall. intros z Z. unfold raders_input in Z. apply in_map_iff in Z as (j & <- & _). simpl. auto. }
  unfold raders_fun. set (n := p - 1) in *. set (G := raders_gather p r x). set (A := fi G).
  set (M := raders_mul p tws (nth 0 x nzero) A).
  assert (LG : length G = n) by (unfold G, raders_gather; now rewrite map_length, seq_length).
  assert (LM : length M = n) by (unfold M, raders_mul; now rewrite map_length, seq_length).
  split; [simpl; rewrite map_length, seq_length; lia|].
  destruct (C G LG) as (_ & CA & DA). destruct (C M LM) as (_ & CB & DB).
  assert (MA : made x (0 + (0 + c)) d (x ++ A)).
  { apply made_app; [apply (made_le _ 0 0); [lia|lia|apply made_self]|]. apply (made_from G); [|now split].
    intros e E. unfold G, raders_gather in E. apply in_map_iff in E as (j & <- & _). apply (nth_known x). }
  assert (Kx : forall i, fixed (nth i x Zero) \/ In (nth i x Zero) (x ++ A)) by (intros i; rewrite in_app_iff; destruct (nth_known x i); auto).
  assert (KA : forall i, fixed (nth i A Zero) \/ In (nth i A Zero) (x ++ A)) by (intros i; rewrite in_app_iff; destruct (nth_known A i); auto).
  assert (In_A : forall i, i < n -> In (nth i A Zero) (x ++ A)).
  { intros i Hi. apply in_app_iff. right. apply nth_In. destruct (C G LG) as [L _]. unfold A. lia. }
  assert (MM : made (x ++ A) (list_sum (map (fun i => if i =? 0 then 2 else 3) (seq 0 n))) 2 M).
  { unfold M, raders_mul. apply made_map_sum. fold n. intros i Hi. apply in_seq in Hi. cbv zeta.
    destruct (Nat.eqb_spec i 0) as [->|N].
    - change 2 with (1 + 1) at 1 2. eapply made_trans with (ys := (x ++ A) ++ [Times (nth 0 A Zero) (re (nth 0 tws (Cplx nzero nzero)))]).
      + change 1 with (0 + 1) at 1. apply made_app; [apply (made_le _ 0 0); [lia|lia|apply made_self]|]. apply made_times; [apply KA|left; apply FT].
      + apply made_plus; [right; apply in_app_iff; right; now left|]. destruct (Kx 0); [now left|right; apply in_app_iff; now left].
    - destruct (2 * i <? n).
      + eapply made_two; [apply (In_A i); lia|apply (In_A (n - i)); lia| | |right; right; left; reflexivity]; apply FT.
      + destruct (2 * i =? n); [apply (made_le _ 1 1); [lia|lia|apply made_times; [apply KA|left; apply FT]]|].
        eapply made_two; [apply (In_A i); lia|apply (In_A (n - i)); lia| | |right; left; reflexivity]; apply FT. }
  assert (Sum : list_sum (map (fun i => if i =? 0 then 2 else 3) (seq 0 n)) + 1 = 3 * n).
  { clear - Hp. destruct n as [|n']eqn:E; [unfold n in E; lia|]. cbn [seq map]. change (0 =? 0) with true. cbn iota.
    replace (map (fun i => if i =? 0 then 2 else 3) (seq 1 n')) with (map (fun _ => 3) (seq 1 n')).
    - change (2 + list_sum (map (fun _ => 3) (seq 1 n')) + 1 = 3 * S n'). rewrite list_sum_const, seq_length. lia.
    - apply map_ext_in. intros i Hi. apply in_seq in Hi. destruct (Nat.eqb_spec i 0); [lia|reflexivity]. }
  assert (MB : made (x ++ A) (1 + (list_sum (map (fun i => if i =? 0 then 2 else 3) (seq 0 n)) + c)) (2 + d) ([Plus (nth 0 x Zero) (nth 0 A Zero)] ++ fi M)).
  { apply made_app; [apply (made_le _ 1 1); [lia|lia|apply made_plus; auto]|]. eapply made_trans; [exact MM|now split]. }
  pose proof (made_trans _ _ _ _ _ _ _ MA MB) as P. eapply made_sub; [|eapply made_le; [| |exact P]; lia].
  intros z [<-|Z]; [right; now left|]. apply in_map_iff in Z as (k & <- & _).
  destruct (nth_known (fi M) (raders_log p s k)) as [F|I]; [now left|]. right. right. exact I.
Qed.

(** ** DhtNaive *)
Lemma naive_cheap n : cheap (naive_fun n) n (2 * n * n) (n + 1).
Proof.
  intros x Lx. split; [unfold naive_fun; now rewrite map_length, seq_length|].
  unfold naive_fun. replace (2 * n * n) with (length (seq 0 n) * (2 * n)) by (rewrite seq_length; lia). apply made_map. intros k _.
  assert (F : forall l acc c s, 1 <= s -> made x c s [acc] ->
    made x (c + 2 * length l) (s + length l) [fold_left (fun acc j => Plus acc (Times (@compute_dht_twiddle expr Num_expr ((j * k) mod n) n) (nth j x Zero))) l acc]).
  { induction l as [|j l IH]; intros acc c s Hs M; cbn [fold_left length]; [apply (made_le _ c s); auto; lia|].
    eapply made_le; [| |apply (IH _ (c + 1 + 1) (s + 1))]; [lia|lia|lia|].
    eapply made_trans with (ys := [acc] ++ [Times (compute_dht_twiddle ((j * k) mod n) n) (nth j x Zero)]).
    - apply made_app; [exact M|]. apply (made_le _ 1 1); [lia|lia|]. apply made_times; [left; simpl; auto|apply nth_known].
    - apply made_plus; right; simpl; auto. }
  specialize (F (seq 0 n) Zero 0 1 (le_n _)). rewrite seq_length in F.
  eapply made_le; [| |apply F]; [lia|lia|]. apply (made_le _ 0 0); [lia|lia|]. apply made_free. intros y [<-|[]]. left. exact Logic.I.
Qed.

(** ** leaves whose program is read off *)
Lemma leaf_cheap m t (d : Dht expr) f c s : in_range t -> @build expr Num_expr m t = Ok d -> transforms d f ->
  pattern (tree_len t) c s (f (map Var (seq 0 (tree_len t)))) = true -> cheap f (tree_len t) c s.
Proof.
  intros I B F P x Lx. destruct (program_exists_proof m t expr Num_expr d I B) as [es Q].
  rewrite (program_run m t es d f Q B F) in P. destruct Q as (L & _ & Q).
  assert (Ld : length x = dht_len d) by (rewrite Lx; symmetry; exact (@build_len expr Num_expr m t d B)).
  rewrite (Q expr Num_expr d f B F x Ld). rewrite map_length. split; [exact L|].
  rewrite <- Lx in P. now apply (pattern_all x c s es).
Qed.

(** ** whole trees *)
Lemma tree_cheap m t (d : Dht expr) : in_range t -> @build expr Num_expr m t = Ok d -> 0 < tree_len t ->
  exists f, dht_ok d f /\ cheap f (tree_len t) (ops t) (path t).
Proof.
  assert (Mod : forall u e, in_range u -> @build expr Num_expr m u = Ok e -> 0 < tree_len u -> modest e).
  { intros u e I B Hu. assert (M : modest_pos e) by (apply (assembled_modest m ranged); [intros ? []|]; eapply build_assembled; eauto).
    apply M. now rewrite (build_len m u e B). }
  assert (Fits : forall k u e, 0 < k -> in_range u -> @build expr Num_expr m u = Ok e -> 0 < tree_len u -> fits k e)
    by (intros; apply fits_modest; eauto).
  revert d. induction t; intros D I B Hn; cbn [build in_range tree_len] in *;
    try (destruct (build m t) as [d| | |] eqn:B0; cbn [bind] in B; try discriminate);
    try (destruct (build m t1) as [d1| | |] eqn:B1; cbn [bind] in B; try discriminate;
         destruct (build m t2) as [d2| | |] eqn:B2; cbn [bind] in B; try discriminate; destruct I as [I1 I2]);
    try (injection B as <-).
  - exists (naive_fun n). split; [apply naive_ok|apply naive_cheap].
  - exists (fun x => x). split; [apply butterfly1_ok|]. intros x Lx. split; [exact Lx|apply made_self].
  - exists (bf_fun bf2_contig). split; [apply butterfly_ok; [lia|apply bf2_kernel]|apply bf2_cheap].
  - exists (bf_fun (bf3_contig bf3_new)). split; [apply butterfly_ok; [lia|apply bf3_kernel]|apply bf3_cheap].
  - exists (bf_fun bf4_contig). split; [apply butterfly_ok; [lia|apply bf4_kernel]|apply bf4_cheap].
  - exists (bf_fun (bf5_contig bf5_new)). split; [apply butterfly_ok; [lia|apply bf5_kernel]|apply bf5_cheap].
  - exists (bf_fun (bf6_contig bf3_new)). split; [apply butterfly_ok; [lia|apply bf6_kernel]|apply bf6_cheap].
  - exists (bf_fun (bf8_contig bf8_new)). split; [apply butterfly_ok; [lia|apply bf8_kernel]|apply bf8_cheap].
  - exists (bf_fun (bf9_contig bf9_new)). split; [apply butterfly_ok; [lia|apply bf9_kernel]|apply bf9_cheap].
  - exists (bf_fun (bf16_contig bf16_new)). split; [apply butterfly_ok; [lia|apply bf16_kernel]|apply bf16_cheap].
  - assert (P1 : 0 < tree_len t1) by nia. assert (P2 : 0 < tree_len t2) by nia.
    destruct (IHt1 d1 I1 eq_refl P1) as (fw & Ow & Cw). destruct (IHt2 d2 I2 eq_refl P2) as (fh & Oh & Ch).
    exists (mixed_fun d1 d2 fw fh). split; [now apply mixed_radix_ok|]. cbn [ops path].
    rewrite <- (build_len m t1 d1 B1), <- (build_len m t2 d2 B2) in *. now apply mixed_cheap.
  - assert (P : 0 < tree_len t) by lia. destruct (IHt d I eq_refl P) as (f & O & C).
    exists (radix2_fun d f). split; [apply mixed_radix_2xn_ok; [exact O|apply (Fits 2 t); auto; lia]|]. cbn [ops path]. rewrite <- (build_len m t d B0) in *. now apply two_cheap.
  - assert (P : 0 < tree_len t) by lia. destruct (IHt d I eq_refl P) as (f & O & C).
    exists (radix3_fun d f). split; [apply mixed_radix_3xn_ok; [exact O|apply (Fits 3 t); auto; lia]|]. cbn [ops path]. rewrite <- (build_len m t d B0) in *.
    intros x Lx. rewrite radix3_fun_mixed. now apply (mixed_cheap butterfly3 d); [simpl; lia| |apply bf3_cheap| |].
  - assert (P : 0 < tree_len t) by lia. destruct (IHt d I eq_refl P) as (f & O & C).
    exists (radix4_fun d f). split; [apply mixed_radix_4xn_ok; [exact O|apply (Fits 4 t); auto; lia]|]. cbn [ops path]. rewrite <- (build_len m t d B0) in *. now apply four_cheap.
  - assert (P : 0 < tree_len t) by lia. destruct (IHt d I eq_refl P) as (f & O & C).
    exists (radix5_fun d f). split; [apply mixed_radix_5xn_ok; [exact O|apply (Fits 5 t); auto; lia]|]. cbn [ops path]. rewrite <- (build_len m t d B0) in *.
    intros x Lx. rewrite radix5_fun_mixed. now apply (mixed_cheap butterfly5 d); [simpl; lia| |apply bf5_cheap| |].
  - assert (P : 0 < tree_len t) by lia. destruct (IHt d I eq_refl P) as (f & O & C).
    exists (radix6_fun d f). split; [apply mixed_radix_6xn_ok; [exact O|apply (Fits 6 t); auto; lia]|]. cbn [ops path]. rewrite <- (build_len m t d B0) in *.
    intros x Lx. rewrite radix6_fun_mixed. now apply (mixed_cheap butterfly6 d); [simpl; lia| |apply bf6_cheap| |].
  - destruct (split_radix_len _ _ _ B) as (L1 & L2 & L3 & L4).
    assert (E1 := build_len m t1 d1 B1). assert (E2 := build_len m t2 d2 B2).
    assert (P1 : 0 < tree_len t1) by lia. assert (P2 : 0 < tree_len t2) by lia.
    destruct (IHt1 d1 I1 eq_refl P1) as (fq & Oq & Cq). destruct (IHt2 d2 I2 eq_refl P2) as (fh & Oh & Ch).
    destruct (Mod t1 d1 I1 B1 P1) as [Q1 Q2]. destruct (Mod t2 d2 I2 B2 P2) as [H1 H2].
    destruct (split_radix_ok d1 d2 fq fh Oq Oh L1 H1 ltac:(lia) Q2) as (d' & E' & O & _).
    rewrite B in E'. injection E' as <-. eexists. split; [exact O|]. cbn [ops path]. rewrite E1. apply split_cheap; auto.
    replace (tree_len t1 * 2) with (tree_len t2) by lia. exact Ch.
  - destruct (radix4_pow _ _ B) as [k ->]. destruct (radix4_ok (T := expr) k) as (d' & E' & O & _).
    rewrite B in E'. injection E' as <-. eexists. split; [exact O|].
    assert (Hk : k <= 6) by (apply (Nat.pow_le_mono_r_iff 2); [lia|exact I]).
    apply (leaf_cheap m (Rad4 (2 ^ k)) D); auto; [now apply transforms_ok|].
    clear - Hk. do 7 (destruct k as [|k]; [vm_compute; reflexivity|]). exfalso. lia.
  - destruct I as [I Hr]. destruct (raders_prime _ _ _ B) as [P L]. destruct (raders_len _ _ _ B) as (L1 & _).
    assert (E := build_len m t d B0).
    destruct (IHt d I eq_refl ltac:(lia)) as (f & O & C).
    destruct (raders_ok m d f O P L) as (D' & r & s & E' & _ & _ & _ & _ & _ & _ & O' & _); [now rewrite E|].
    rewrite B in E'. injection E' as <-. eexists. split; [exact O'|]. cbn [ops path]. rewrite E.
    replace (3 * tree_len t) with (3 * (tree_len t + 1 - 1)) by lia. apply rader_cheap; [lia|].
    now replace (tree_len t + 1 - 1) with (tree_len t) by lia.
Qed.
