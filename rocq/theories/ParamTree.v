(** * Two runs of one tree *)
From Verif Require Export ParamModel FloatSpec TreeProof.
From Verif Require Import Lemmas RealDHT FloatTree TreeReal.
From Coq Require Import Reals Lra Lia Psatz.

(** ** trees *)
Section Build.
  Context {A B : Type} {NA : Num A} {NB : Num B}.
  Variables (RC RD : A -> B -> Prop).
  Hypothesis HC : coefs RC.
  Hypothesis HD : additive RC RD.
  Lemma build_alike m t : rr (fun d d' => alike RC d d' /\ alike RD d d') (build m t) (build m t).
  Proof.
    pose proof (coefs_additive RC HC) as HCC.
    assert (W : forall (r : res (Dht A)) (r' : res (Dht B)), rr (alike RC) r r' -> rr (alike RD) r r' -> rr (fun d d' => alike RC d d' /\ alike RD d d') r r').
    { intros [] []; simpl; auto. }
    induction t; cbn [build];
      try (eapply rr_bind; [exact IHt|]; intros d d' [H1 H2]);
      try (eapply rr_bind; [exact IHt1|]; intros d d' [H1 H2]; eapply rr_bind; [exact IHt2|]; intros e e' [H3 H4]);
      apply W; cbn [rr];
      first [ apply (alike_naive RC); assumption | apply alike_bf1 | apply (alike_bf2 RC); assumption | apply (alike_bf3 RC); assumption
            | apply (alike_bf4 RC); assumption | apply (alike_bf5 RC); assumption | apply (alike_bf6 RC); assumption
            | apply (alike_bf8 RC); assumption | apply (alike_bf9 RC); assumption | apply (alike_bf16 RC); assumption
            | apply (alike_mixed RC); assumption | apply (alike_2xn RC); assumption | apply (alike_3xn RC); assumption | apply (alike_4xn RC); assumption
            | apply (alike_5xn RC); assumption | apply (alike_6xn RC); assumption | apply (alike_split RC); assumption
            | apply (alike_radix4 RC); assumption | apply (alike_raders RC); assumption ].
  Qed.
End Build.

Lemma Forall2_of_nth {A B} (R : A -> B -> Prop) a b l l' : length l = length l' ->
  (forall i, i < length l -> R (nth i l a) (nth i l' b)) -> Forall2 R l l'.
Proof.
  revert l'. induction l as [|x l IH]; intros [|y l'] L H; try discriminate; constructor.
  - apply (H 0). simpl. lia.
  - apply IH; [now injection L|]. intros i Hi. apply (H (S i)). simpl. lia.
Qed.

Section Transforms.
  Context {A B : Type} {NA : Num A} {NB : Num B}.
  Variable R : A -> B -> Prop.
  Lemma alike_transforms d d' f f' : alike R d d' -> R nzero nzero -> transforms d f -> transforms d' f' ->
    forall x x', Forall2 R x x' -> length x = dht_len d -> Forall2 R (f x) (f' x').
  Proof.
    intros K Z T T' x x' H L. assert (L' : length x' = dht_len d') by (rewrite <- (L_len H), L; apply K).
    destruct (Nat.eq_dec (dht_len d) 0) as [E|E].
    - pose proof (tr_len _ _ T x L) as F. pose proof (tr_len _ _ T' x' L') as F'. rewrite E in F. rewrite <- (ak_len _ _ _ K), E in F'.
      destruct (f x); [|discriminate]. destruct (f' x'); [|discriminate]. constructor.
    - assert (P : 0 < dht_len d) by lia. assert (P' : 0 < dht_len d') by (rewrite <- (ak_len _ _ _ K); auto).
      destruct (tr_inplace _ _ T [x] (repeat nzero (dht_inplace_scratch d)) P) as (s1 & E1 & _).
      { split; [discriminate|]. constructor; auto. } { now rewrite repeat_length. }
      destruct (tr_inplace _ _ T' [x'] (repeat nzero (dht_inplace_scratch d)) P') as (s2 & E2 & _).
      { split; [discriminate|]. constructor; auto. } { rewrite repeat_length, (ak_ins _ _ _ K). lia. }
      simpl in E1, E2. rewrite !app_nil_r in *.
      pose proof (ak_inplace _ _ _ K x x' _ _ H (L_repeat R (dht_inplace_scratch d) _ _ Z)) as G.
      rewrite E1, E2 in G. apply G.
  Qed.
End Transforms.

(** ** the contents of the slices do not matter *)
Section Any.
  Context {A B : Type} {NA : Num A} {NB : Num B}.
  Definition any (a : A) (b : B) : Prop := True.
  Lemma any_coefs : coefs any.
  Proof. constructor; intros; exact I. Qed.
  Lemma any_additive : additive any any.
  Proof. constructor; intros; exact I. Qed.
  Lemma any_list (l : list A) (l' : list B) : length l = length l' -> Forall2 any l l'.
  Proof. revert l'. induction l; intros [|b l'] H; try discriminate; constructor; [exact I|]. apply IHl. now injection H. Qed.
  Lemma alike_any (d : Dht A) (d' : Dht B) : alike any d d' <-> indifferent d d'.
  Proof.
    split.
    - intros K. split; [repeat split; apply K|]. split; intros.
      + eapply rr_weaken; [apply (ak_inplace _ _ _ K); now apply any_list|]. intros [x y] [x' y'] [H1 H2]. split; [apply (L_len H1)|apply (L_len H2)].
      + eapply rr_weaken; [apply (ak_oop _ _ _ K); now apply any_list|]. intros [[x y] z] [[x' y'] z'] [[H2 H3] H4]. repeat split; eapply L_len; eauto.
    - intros ((L1 & L2 & L3) & HI & HO). constructor; auto; intros.
      + eapply rr_weaken; [apply HI; eapply L_len; eauto|]. intros [x y] [x' y'] [H1 H2]. split; now apply any_list.
      + eapply rr_weaken; [apply HO; eapply L_len; eauto|]. intros [[x y] z] [[x' y'] z'] (H2 & H3 & H4). repeat split; now apply any_list.
  Qed.
End Any.
Lemma build_indifferent A B (NA : Num A) (NB : Num B) m t : rr indifferent (@build A NA m t) (@build B NB m t).
Proof.
  eapply rr_weaken; [apply (build_alike any any); [apply any_coefs|apply any_additive]|]. intros d d' [_ H]. now apply alike_any.
Qed.
Lemma assembled_indifferent T (NT : Num T) m (A : allowed T) : (forall d, al_user A d -> indifferent d d) ->
  forall d, assembled m A d -> indifferent d d.
Proof.
  intros U d H. apply alike_any. pose proof (@any_coefs T T _ _) as HC. pose proof (@any_additive T T _ _) as HD.
  induction H as [d H|n| | | | | | | | | |dw dh A1 I1 A2 I2|d A1 I1|d A1 I1|d A1 I1|d A1 I1|d A1 I1
      |dq dh d A1 I1 A2 I2 E|len d E S|d D A1 I1 E S].
  - now apply alike_any, U.
  - now apply (alike_naive any).
  - apply alike_bf1.
  - now apply (alike_bf2 any).
  - now apply (alike_bf3 any).
  - now apply (alike_bf4 any).
  - now apply (alike_bf5 any).
  - now apply (alike_bf6 any).
  - now apply (alike_bf8 any).
  - now apply (alike_bf9 any).
  - now apply (alike_bf16 any).
  - now apply (alike_mixed any).
  - now apply (alike_2xn any).
  - now apply (alike_3xn any).
  - now apply (alike_4xn any).
  - now apply (alike_5xn any).
  - now apply (alike_6xn any).
  - assert (G := alike_split any any HC HD dq dq dh dh I1 I2). rewrite E in G. exact G.
  - assert (G := alike_radix4 any any HC HD len). rewrite E in G. exact G.
  - assert (G := alike_raders any any HC HD d d I1 I1 m). rewrite E in G. exact G.
Qed.

(** ** contamination *)
Local Open Scope R_scope.
Section Bad.
  Context {T : Type} {NT : Num T} (bad : T -> Prop).
  Hypothesis H : absorbing bad.
  Local Hint Extern 0 (Num R) => exact (RNum rh) : typeclass_instances.
  Definition taint (t : T) (r : R) : Prop := r <> 0 -> bad t.
  Definition anyc (t : T) (r : R) : Prop := True.
  Lemma anyc_coefs : coefs anyc.
  Proof. constructor; intros; exact I. Qed.
  Lemma taint_additive : additive anyc taint.
  Proof.
    constructor; unfold taint; cbn [nzero nadd nsub nopp nmul RNum]; intros.
    - lra.
    - apply (ab_add _ H). destruct (Req_dec a' 0) as [->|]; [right; apply H1; lra|auto].
    - apply (ab_sub _ H). destruct (Req_dec a' 0) as [->|]; [right; apply H1; lra|auto].
    - apply (ab_opp _ H), H0. lra.
    - apply (ab_mul _ H). right. apply H1. nra.
    - apply (ab_mul _ H). left. apply H1. nra.
  Qed.
  Lemma ranged_exact m (d : Dht R) : assembled m ranged d -> dht_ok d dht_spec.
  Proof.
    intros. apply (assembled_exact rh) with (m := m) (A := ranged); auto.
    - unfold rh. rewrite sqrt_inv by lra. apply Rinv_l. assert (0 < sqrt 2) by (apply sqrt_lt_R0; lra). lra.
    - intros ? [].
  Qed.
  Lemma tree_spreads m t d : in_range t -> build m t = Ok d -> spreads bad d.
  Proof.
    intros I E. pose proof (build_alike anyc taint anyc_coefs taint_additive m t) as K.
    rewrite E in K. destruct (build m t) as [e| | |] eqn:Er in K; try contradiction. destruct K as [_ K].
    pose proof (ranged_exact m e (build_assembled m t e I Er)) as Oe.
    destruct (assembled_ok m ranged ltac:(intros ? []) ltac:(auto) d (build_assembled m t d I E)) as [f O].
    apply transforms_ok in O. apply transforms_ok in Oe. exists f. split; [exact O|].
    intros x j k Lx Hj Hk Bj Ck. set (n := dht_len d) in *.
    set (y := map (fun i => if (i =? j)%nat then 1 else 0) (seq 0 n)).
    assert (Ly : length y = n) by (unfold y; now rewrite map_length, seq_length).
    assert (F : Forall2 taint x y).
    { apply (Forall2_of_nth _ nzero 0); [now rewrite Ly|]. intros i Hi. unfold y. rewrite nth_map_seq, Nat.add_0_l by lia.
      destruct (Nat.eqb_spec i j) as [->|]; intros Z; [exact Bj|lra]. }
    pose proof (alike_transforms taint d e f dht_spec K ltac:(intros Z; now elim Z) O Oe x y F Lx) as G.
    pose proof (L_nth_in taint _ _ k nzero 0 G ltac:(rewrite (tr_len _ _ O x Lx); exact Hk)) as Gk.
    apply Gk. rewrite nth_dht_spec by lia. unfold dht_at. rewrite (rsum_single _ j); [|lia|].
    - rewrite Ly. unfold y. rewrite nth_map_seq, Nat.add_0_l, Nat.eqb_refl by lia. lra.
    - intros i Hi N. unfold y. rewrite nth_map_seq, Nat.add_0_l by lia. destruct (Nat.eqb_spec i j); [easy|lra].
  Qed.
End Bad.

(** ** which coefficients are zero *)
Lemma cas_ang_0 n : cas (ang n 0) <> 0.
Proof. unfold ang. simpl INR. replace (2 * PI * 0 / INR n) with 0 by (unfold Rdiv; ring). unfold cas. rewrite cos_0, sin_0. lra. Qed.
Lemma cas_zero n i : (0 < n)%nat -> cas (ang n i) = 0 -> Nat.divide 8 n.
Proof.
  intros Hn C. assert (Pn : 0 < INR n) by now apply lt_0_INR. pose proof PI_RGT_0 as PP.
  assert (S : sin (ang n i + PI / 4) = 0).
  { rewrite sin_plus, cos_PI4, sin_PI4. unfold cas in C. replace (sin (ang n i)) with (- cos (ang n i)) by lra. ring. }
  destruct (sin_eq_0_0 _ S) as [z Hz]. unfold ang in Hz.
  assert (E : 8 * INR i + INR n = 4 * IZR z * INR n).
  { apply (Rmult_eq_reg_r (PI / (4 * INR n))); [|apply Rgt_not_eq; unfold Rdiv; apply Rmult_lt_0_compat; [lra|apply Rinv_0_lt_compat; lra]].
    replace (4 * IZR z * INR n * (PI / (4 * INR n))) with (IZR z * PI) by (field; lra). rewrite <- Hz. field. lra. }
  rewrite !INR_IZR_INZ in E. assert (E' : IZR (8 * Z.of_nat i + Z.of_nat n) = IZR (4 * z * Z.of_nat n)) by (rewrite plus_IZR, !mult_IZR; lra).
  clear E. apply eq_IZR in E'. rename E' into E.
  assert (D : (8 | Z.of_nat n)%Z).
  { apply (Znumtheory.Gauss 8 (4 * z - 1)).
    - exists (Z.of_nat i). lia.
    - apply Znumtheory.bezout_rel_prime. apply (Znumtheory.Bezout_intro 8 (4 * z - 1) 1 (2 * z * z)%Z (- (4 * z + 1))%Z). ring. }
  destruct D as [q Hq]. exists (Z.to_nat q). lia.
Qed.
