(** * The MixedRadixNxn algorithms over exact reals *)
From Verif Require Import Lemmas Contract ButterfliesProof NxnProof NxnInst MixedRadixProof MixedContract RealDHT
  MixedReal ButterfliesReal.
From Coq Require Import Reals Lra Lia List Arith.
Import ListNotations.

(** ** 3xn, 5xn and 6xn are MixedRadix with a butterfly as the width algorithm, operation by operation *)
Section Same.
  Context {T : Type} {NT : Num T}.

  Lemma radix3_pairp_mixed (tw : nat -> cplx T) f v : length f = 3 -> length v = 3 ->
    radix3_pairp (tw 1) f v = mixed_pairp 3 (bf_fun (bf3_contig bf3_new)) tw f v.
  Proof. intros Hf Hv. list_of 3 f Hf. list_of 3 v Hv. reflexivity. Qed.
  Lemma radix5_pairp_mixed (tw : nat -> cplx T) f v : length f = 5 -> length v = 5 ->
    radix5_pairp [tw 1; tw 2] f v = mixed_pairp 5 (bf_fun (bf5_contig bf5_new)) tw f v.
  Proof. intros Hf Hv. list_of 5 f Hf. list_of 5 v Hv. reflexivity. Qed.
  Lemma radix6_pairp_mixed (tw : nat -> cplx T) f v : length f = 6 -> length v = 6 ->
    radix6_pairp [tw 1; tw 2; tw 3] f v = mixed_pairp 6 (bf_fun (bf6_contig bf3_new)) tw f v.
  Proof. intros Hf Hv. list_of 6 f Hf. list_of 6 v Hv. reflexivity. Qed.

  Lemma cols_fun_pairp {A B} k h bfp (p1 : A -> list T -> list T -> list T * list T)
      (p2 : B -> list T -> list T -> list T * list T) t1 t2 buf :
    (forall c f v, length f = k -> length v = k -> p1 (t1 c) f v = p2 (t2 c) f v) ->
    cols_fun k h bfp p1 t1 buf = cols_fun k h bfp p2 t2 buf.
  Proof.
    intros E. unfold cols_fun. apply tab_ext. intros r c Hr Hc. unfold cols_cell.
    rewrite !E by apply col_length. reflexivity.
  Qed.

  Lemma radix3_cols_mixed h buf : radix3_cols h buf =
    cols_fun 3 h (bf_fun (bf3_contig bf3_new)) (mixed_pairp 3 (bf_fun (bf3_contig bf3_new))) (fun c r => tw8 3 h r c) buf.
  Proof. apply cols_fun_pairp. intros. apply (radix3_pairp_mixed (fun r => tw8 3 h r c)); auto. Qed.
  Lemma radix5_cols_mixed h buf : radix5_cols h buf =
    cols_fun 5 h (bf_fun (bf5_contig bf5_new)) (mixed_pairp 5 (bf_fun (bf5_contig bf5_new))) (fun c r => tw8 5 h r c) buf.
  Proof. apply cols_fun_pairp. intros. apply (radix5_pairp_mixed (fun r => tw8 5 h r c)); auto. Qed.
  Lemma radix6_cols_mixed h buf : radix6_cols h buf =
    cols_fun 6 h (bf_fun (bf6_contig bf3_new)) (mixed_pairp 6 (bf_fun (bf6_contig bf3_new))) (fun c r => tw8 6 h r c) buf.
  Proof. apply cols_fun_pairp. intros. apply (radix6_pairp_mixed (fun r => tw8 6 h r c)); auto. Qed.

  Lemma radix3_fun_mixed d fi x : radix3_fun d fi x = mixed_fun butterfly3 d (bf_fun (bf3_contig bf3_new)) fi x.
  Proof. apply radix3_cols_mixed. Qed.
  Lemma radix5_fun_mixed d fi x : radix5_fun d fi x = mixed_fun butterfly5 d (bf_fun (bf5_contig bf5_new)) fi x.
  Proof. apply radix5_cols_mixed. Qed.
  Lemma radix6_fun_mixed d fi x : radix6_fun d fi x = mixed_fun butterfly6 d (bf_fun (bf6_contig bf3_new)) fi x.
  Proof. apply radix6_cols_mixed. Qed.
End Same.

Local Open Scope R_scope.

Section ColsReal.
  Variables (W H : nat) (x : list R).
  Hypothesis Wp : (0 < W)%nat.
  Hypothesis Hp : (0 < H)%nat.
  Hypothesis Lx : length x = (W * H)%nat.
  Context (cst : R).
  Local Hint Extern 0 (Num R) => exact (RNum cst) : typeclass_instances.
  Variables bfp fh : list R -> list R.
  Hypothesis bfp_spec : forall y, length y = W -> bfp y = dht_spec y.
  Hypothesis fh_spec : forall y, length y = H -> fh y = dht_spec y.
  Context {A : Type} (pairp : A -> list R -> list R -> list R * list R) (tw : nat -> A).
  Let st := stored W H x cst fh.
  Hypothesis pair_spec : forall c q, (0 < c < H)%nat -> (q < W)%nat ->
    nth q (fst (pairp (tw c) (col W H st c) (col W H st (H - c)))) 0 =
      rsum W (fun r => cos (beta W H r c q) * ar W H x r c + sin (beta W H r c q) * ar' W H x r c) /\
    nth q (snd (pairp (tw c) (col W H st c) (col W H st (H - c)))) 0 =
      rsum W (fun r => cos (beta W H r c (W - 1 - q)) * ar' W H x r c - sin (beta W H r c (W - 1 - q)) * ar W H x r c).

  Lemma cols_real : cols_fun W H bfp pairp tw st = dht_spec x.
  Proof.
    apply dht_spec_ext.
    - unfold cols_fun. now rewrite tab_length.
    - intros k Hk. rewrite Lx in Hk.
      rewrite (Nat.div_mod k H) by lia. rewrite (Nat.mul_comm H).
      assert (Hc : (k mod H < H)%nat) by (apply Nat.mod_upper_bound; lia).
      assert (Hq : (k / H < W)%nat) by (apply Nat.div_lt_upper_bound; lia).
      set (c := (k mod H)%nat) in *. set (q := (k / H)%nat) in *. clearbody c q.
      unfold cols_fun. change 0 with (@nzero R (RNum cst)) at 1. rewrite nth_tab by auto.
      unfold cols_cell. cbn [nzero RNum]. destruct (Nat.eqb_spec c 0) as [->|N].
      + unfold col. rewrite (nth_dht_map W) by auto. rewrite Nat.add_0_r, (dht_at_col0 W H x Wp Hp Lx).
        apply rsum_ext. intros r Hr. f_equal. cbn [nzero RNum]. apply stored_zero; auto.
      + destruct (Nat.ltb_spec (2 * c) H).
        * rewrite (proj1 (pair_spec c q ltac:(lia) Hq)). symmetry. now apply decimate_fwd.
        * pose proof (proj2 (pair_spec (H - c) q ltac:(lia) Hq)) as P.
          replace (H - (H - c))%nat with c in P by lia. rewrite P.
          replace (q * H + c)%nat with (q * H + (H - (H - c)))%nat by lia. symmetry. apply decimate_rev; auto; lia.
  Qed.
End ColsReal.

Section Radix24.
  Variables (H : nat) (x : list R).
  Hypothesis Hp : (0 < H)%nat.
  Context (cst : R).
  Local Hint Extern 0 (Num R) => exact (RNum cst) : typeclass_instances.
  Variable fh : list R -> list R.
  Hypothesis fh_spec : forall y, length y = H -> fh y = dht_spec y.

  Lemma beta_q W r c q : beta W H r c q = INR r * ang (W * H) c + INR r * ang W q.
  Proof. unfold beta. now rewrite ang_mul. Qed.

  Lemma radix2_real : length x = (2 * H)%nat -> radix2_cols H (stored 2 H x cst fh) = dht_spec x.
  Proof.
    intros Lx. unfold radix2_cols. apply cols_real; auto; try lia; [apply bf2_real|].
    intros c q Hc Hq. set (st := stored 2 H x cst fh).
    destruct (col_low 2 H x ltac:(lia) Hp Lx cst fh fh_spec 0 c Hc ltac:(lia) ltac:(lia)) as [E0 E0'].
    destruct (col_low 2 H x ltac:(lia) Hp Lx cst fh fh_spec 1 c Hc ltac:(lia) ltac:(lia)) as [E1 E1'].
    fold st in E0, E0', E1, E1'. 
    set (F := col 2 H st c) in *. set (V := col 2 H st (H - c)) in *.
    assert (LF : length F = 2%nat) by apply col_length. assert (LV : length V = 2%nat) by apply col_length.
    clearbody F V. list_of 2%nat F LF. list_of 2%nat V LV.
    cbn [nth] in E0, E0', E1, E1'. subst.
    unfold tw2. rewrite dft_twiddle_val. cbn [rsum]. rewrite !beta_q. simpl (INR 0). simpl (INR 1).
    rewrite !Rmult_0_l, !Rmult_1_l, !Rplus_0_l, cos_0, sin_0.
    assert (P : ang 2 1 = PI) by (apply (ang_half 1); lia).
    unfold radix2_pairp, radix2_pair, res_get, bf2_strided. cbn [re im fst snd nadd nsub nmul RNum].
    destruct q as [|[|q]]; [| |lia]; cbn [nth]; simpl (2 - 1 - _)%nat; rewrite ?ang_0, ?P, ?Rplus_0_r, ?neg_cos, ?neg_sin; split; lra.
  Qed.

  Lemma radix4_real : length x = (4 * H)%nat -> radix4_cols H (stored 4 H x cst fh) = dht_spec x.
  Proof.
    intros Lx. unfold radix4_cols. apply cols_real; auto; try lia; [apply bf4_real|].
    intros c q Hc Hq. set (st := stored 4 H x cst fh).
    destruct (col_low 4 H x ltac:(lia) Hp Lx cst fh fh_spec 0 c Hc ltac:(lia) ltac:(lia)) as [E0 E0'].
    destruct (col_low 4 H x ltac:(lia) Hp Lx cst fh fh_spec 1 c Hc ltac:(lia) ltac:(lia)) as [E1 E1'].
    destruct (col_low 4 H x ltac:(lia) Hp Lx cst fh fh_spec 2 c Hc ltac:(lia) ltac:(lia)) as [E2 E2'].
    destruct (col_high 4 H x ltac:(lia) Hp Lx cst fh fh_spec 3 c Hc ltac:(lia) ltac:(lia)) as [E3 E3'].
    fold st in E0, E0', E1, E1', E2, E2', E3, E3'. 
    set (F := col 4 H st c) in *. set (V := col 4 H st (H - c)) in *.
    assert (LF : length F = 4%nat) by apply col_length. assert (LV : length V = 4%nat) by apply col_length.
    clearbody F V. list_of 4%nat F LF. list_of 4%nat V LV.
    cbn [nth] in E0, E0', E1, E1', E2, E2', E3, E3'. subst.
    set (th := ang (4 * H) c).
    assert (B0 : forall q, beta 4 H 0 c q = 0) by (intros; rewrite beta_q; simpl; lra).
    assert (B1 : forall q, beta 4 H 1 c q = th + ang 4 q) by (intros; rewrite beta_q; unfold th; simpl; lra).
    assert (B2 : forall q, beta 4 H 2 c q = 2 * th + 2 * ang 4 q) by (intros; rewrite beta_q; unfold th; simpl; lra).
    assert (B3 : forall q, cos (beta 4 H 3 c q) = cos (ang H c - (th + ang 4 q)) /\ sin (beta 4 H 3 c q) = sin (ang H c - (th + ang 4 q))).
    { intros q0. rewrite <- B1. apply (beta_opp 4 H x ltac:(lia) Hp Lx 1 c q0). lia. }
    unfold tw4. rewrite !dft_twiddle_val, !ang_mul. simpl (INR 1). change (INR 2) with (1 + 1). fold th. rewrite Rmult_1_l. replace (1 + 1) with 2 by lra.
    cbn [rsum]. rewrite !B0, !B1, !B2.
    destruct (B3 q) as [-> ->]. destruct (B3 (4 - 1 - q)%nat) as [-> ->]. clear B0 B1 B2 B3.
    rewrite !(cos_minus (ang H c)), !(sin_minus (ang H c)), cos_0, sin_0.
    unfold radix4_pairp, radix4_pair, res_get, bf2_strided. cbn [re im fst snd nadd nsub nmul RNum idx nth_error bind].
    assert (P0 : ang 4 0 = 0) by apply ang_0.
    assert (P1 : ang 4 1 = PI / 2) by (unfold ang; simpl; field).
    assert (P2 : ang 4 2 = PI) by (unfold ang; simpl; field).
    assert (P3 : ang 4 3 = PI + PI / 2) by (unfold ang; simpl; field).
    assert (Q : forall t, cos (t + PI / 2) = - sin t /\ sin (t + PI / 2) = cos t)
      by (intros; rewrite cos_plus, sin_plus, cos_PI2, sin_PI2; split; lra).
    assert (C0 : cos (th + ang 4 0) = cos th /\ sin (th + ang 4 0) = sin th) by (rewrite P0, Rplus_0_r; auto).
    assert (C1 : cos (th + ang 4 1) = - sin th /\ sin (th + ang 4 1) = cos th) by (rewrite P1; apply Q).
    assert (C2 : cos (th + ang 4 2) = - cos th /\ sin (th + ang 4 2) = - sin th) by (rewrite P2, neg_cos, neg_sin; auto).
    assert (C3 : cos (th + ang 4 3) = sin th /\ sin (th + ang 4 3) = - cos th)
      by (rewrite P3, <- Rplus_assoc; destruct (Q (th + PI)) as [-> ->]; rewrite neg_cos, neg_sin; split; lra).
    assert (D0 : cos (2 * th + 2 * ang 4 0) = cos (2 * th) /\ sin (2 * th + 2 * ang 4 0) = sin (2 * th)) by (rewrite P0, Rmult_0_r, Rplus_0_r; auto).
    assert (D1 : cos (2 * th + 2 * ang 4 1) = - cos (2 * th) /\ sin (2 * th + 2 * ang 4 1) = - sin (2 * th))
      by (rewrite P1; replace (2 * (PI / 2)) with PI by field; rewrite neg_cos, neg_sin; auto).
    assert (D2 : cos (2 * th + 2 * ang 4 2) = cos (2 * th) /\ sin (2 * th + 2 * ang 4 2) = sin (2 * th)).
    { rewrite P2. rewrite <- (cos_turn (2 * th) 1), <- (sin_turn (2 * th) 1). simpl (INR 1). rewrite Rmult_1_r. auto. }
    assert (D3 : cos (2 * th + 2 * ang 4 3) = - cos (2 * th) /\ sin (2 * th + 2 * ang 4 3) = - sin (2 * th)).
    { rewrite P3. replace (2 * th + 2 * (PI + PI / 2)) with (2 * th + PI + 2 * INR 1 * PI) by (simpl; field).
      rewrite cos_turn, sin_turn, neg_cos, neg_sin. auto. }
    destruct C0 as [C0 C0'], C1 as [C1 C1'], C2 as [C2 C2'], C3 as [C3 C3'].
    destruct D0 as [D0 D0'], D1 as [D1 D1'], D2 as [D2 D2'], D3 as [D3 D3'].
    destruct q as [|[|[|[|q]]]]; [| | | |lia]; cbn [nth]; simpl (4 - 1 - _)%nat;
      rewrite ?C0, ?C0', ?C1, ?C1', ?C2, ?C2', ?C3, ?C3', ?D0, ?D0', ?D1, ?D1', ?D2, ?D2', ?D3, ?D3';
      split; ring.
  Qed.
End Radix24.

(** ** the functions of the contract *)
Section Funs.
  Context (cst : R).
  Local Hint Extern 0 (Num R) => exact (RNum cst) : typeclass_instances.
  Variables (d : Dht R) (fi : list R -> list R).
  Hypothesis dp : (0 < dht_len d)%nat.
  Hypothesis fi_spec : forall y, length y = dht_len d -> fi y = dht_spec y.

  Lemma radix2_fun_real x : length x = (2 * dht_len d)%nat -> radix2_fun d fi x = dht_spec x.
  Proof. intros. unfold radix2_fun, nxn_fun. now apply radix2_real. Qed.
  Lemma radix4_fun_real x : length x = (4 * dht_len d)%nat -> radix4_fun d fi x = dht_spec x.
  Proof. intros. unfold radix4_fun, nxn_fun. now apply radix4_real. Qed.
  Section Exact.
  Hypothesis rho1 : cst * sqrt 2 = 1.
  Lemma mixed_fun_real dw fw x : (0 < dht_len dw)%nat -> (forall y, length y = dht_len dw -> fw y = dht_spec y) ->
    length x = (dht_len dw * dht_len d)%nat -> mixed_fun dw d fw fi x = dht_spec x.
  Proof. intros. unfold mixed_fun. now apply mixed_real. Qed.
  Lemma radix3_fun_real x : length x = (3 * dht_len d)%nat -> radix3_fun d fi x = dht_spec x.
  Proof. intros. rewrite radix3_fun_mixed. apply mixed_fun_real; auto; [simpl; lia|apply bf3_real]. Qed.
  Lemma radix5_fun_real x : length x = (5 * dht_len d)%nat -> radix5_fun d fi x = dht_spec x.
  Proof. intros. rewrite radix5_fun_mixed. apply mixed_fun_real; auto; [simpl; lia|apply bf5_real]. Qed.
  Lemma radix6_fun_real x : length x = (6 * dht_len d)%nat -> radix6_fun d fi x = dht_spec x.
  Proof. intros. rewrite radix6_fun_mixed. apply mixed_fun_real; auto; [simpl; lia|apply bf6_real]. Qed.
  End Exact.
End Funs.
