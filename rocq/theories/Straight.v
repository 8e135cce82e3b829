(** * Proofs of C65 and C66 *)
From Verif Require Export StraightSpec.
From Verif Require Import Lemmas ParamTree FloatTree PropsFloatProof PropsParamProof.
From Flocq Require Import Core Mult_error Plus_error IEEE754.BinarySingleNaN.
From Coq Require Import Reals Lra Lia Bool.

Definition Num_expr : Num expr := {|
  nzero := Zero; nadd := Plus; nsub := Minus; nmul := Times; nopp := Neg;
  ncos := Cos; nsin := Sin; nhalf := Half; nroot_half := Root_half; nrecip := Recip |}.

Lemma constant_coefs : @coefs expr expr Num_expr Num_expr (fun a _ => fixed a).
Proof. constructor; simpl; auto. Qed.
Lemma linear_additive n : @additive expr expr Num_expr Num_expr (fun a _ => fixed a) (fun a _ => combination n a).
Proof. constructor; simpl; auto. Qed.

Lemma eval_coefs T (N : Num T) x : @coefs expr T Num_expr N (fun e v => eval x e = v).
Proof. constructor; simpl; intros; subst; reflexivity. Qed.

Lemma variables T (N : Num T) (x : list T) : Forall2 (fun e v => eval x e = v) (map Var (seq 0 (length x))) x.
Proof.
  assert (H : forall y z, Forall2 (fun e v => eval (y ++ z) e = v) (map Var (seq (length y) (length z))) z).
  { intros y z. revert y. induction z as [|a z IH]; intros y; simpl; constructor.
    - simpl. rewrite app_nth2, Nat.sub_diag by lia. reflexivity.
    - specialize (IH (y ++ [a])). rewrite app_length, Nat.add_1_r, <- app_assoc in IH. exact IH. }
  exact (H [] x).
Qed.

Lemma forall_diag {A} (P : A -> Prop) l : Forall P l -> Forall2 (fun a _ => P a) l l.
Proof. induction 1; auto. Qed.
Lemma diag_forall {A} (P : A -> Prop) l (l' : list A) : Forall2 (fun a _ => P a) l l' -> Forall P l.
Proof. induction 1; auto. Qed.

Lemma program_exists_proof m t T (N : Num T) d : in_range t -> @build T N m t = Ok d -> exists es, program m t es.
Proof.
  intros I E. pose proof (build_indifferent T expr N Num_expr m t) as H. rewrite E in H.
  destruct (@build expr Num_expr m t) as [e| | |] eqn:E'; try contradiction. clear H.
  destruct (PropsParamProof.tree_transforms expr Num_expr m t e I E') as [f F].
  assert (Le : dht_len e = tree_len t) by exact (@build_len expr Num_expr m t e E').
  set (xs := map Var (seq 0 (tree_len t))).
  assert (Lx : length xs = dht_len e) by (unfold xs; rewrite map_length, seq_length; auto).
  exists (f xs). split; [|split].
  - rewrite <- Le. apply (tr_len _ _ F); exact Lx.
  - pose proof (parametric_proof expr expr Num_expr Num_expr _ _ constant_coefs (linear_additive (tree_len t)) m t e e f f E' E' F F xs xs Lx) as P.
    apply (diag_forall _ _ (f xs)), P, forall_diag. unfold xs.
    apply Forall_forall. intros v Hv. apply in_map_iff in Hv. destruct Hv as (j & <- & Hj). apply in_seq in Hj. simpl. lia.
  - intros T' N' d' f' B' F' x Hx.
    pose proof (parametric_proof expr T' Num_expr N' _ _ (eval_coefs T' N' x) (coefs_additive _ (eval_coefs T' N' x)) m t e d' f f' E' B' F F' xs x Lx) as P.
    assert (Ld : dht_len d' = tree_len t) by exact (@build_len T' N' m t d' B').
    assert (K : Forall2 (fun e v => eval x e = v) (f xs) (f' x)).
    { apply P. unfold xs. rewrite <- Ld, <- Hx. apply variables. }
    clear - K. induction K; simpl; congruence.
Qed.

(** ** reading the program off: run the code on the variables themselves *)
Lemma eval_vars n e : combination n e \/ fixed e -> @eval expr Num_expr (map Var (seq 0 n)) e = e.
Proof.
  induction e; cbn [eval combination fixed nzero nadd nsub nmul nopp ncos nsin nhalf nroot_half nrecip Num_expr]; auto; intros H.
  - destruct H as [H|[]]. rewrite (nth_indep _ _ (Var 0)) by (rewrite map_length, seq_length; auto).
    rewrite map_nth, seq_nth; auto.
  - rewrite IHe1, IHe2; tauto.
  - rewrite IHe1, IHe2; tauto.
  - rewrite IHe1, IHe2; tauto.
  - rewrite IHe; tauto.
Qed.
Lemma evals_vars n es : Forall (combination n) es -> map (@eval expr Num_expr (map Var (seq 0 n))) es = es.
Proof. induction 1; simpl; auto. rewrite IHForall, eval_vars; auto. Qed.

Lemma program_run m t es (d : Dht expr) f : program m t es -> @build expr Num_expr m t = Ok d -> transforms d f ->
  f (map Var (seq 0 (tree_len t))) = es.
Proof.
  intros (_ & P & Q) B F. rewrite (Q expr Num_expr d f B F).
  - now apply evals_vars.
  - rewrite map_length, seq_length. symmetry. exact (@build_len expr Num_expr m t d B).
Qed.
Lemma program_unique_proof m t T (N : Num T) d es es' : in_range t -> @build T N m t = Ok d -> program m t es -> program m t es' -> es = es'.
Proof.
  intros I E P P'. pose proof (build_indifferent T expr N Num_expr m t) as H. rewrite E in H.
  destruct (@build expr Num_expr m t) as [e| | |] eqn:E'; try contradiction. clear H.
  destruct (PropsParamProof.tree_transforms expr Num_expr m t e I E') as [f F].
  rewrite <- (program_run m t es e f P E' F). now apply (program_run m t es' e f).
Qed.
Lemma program_read_proof m t (d : Dht expr) es output input' scratch scratch' : in_range t -> @build expr Num_expr m t = Ok d ->
  0 < tree_len t -> length output = tree_len t -> dht_oop_scratch d <= length scratch ->
  dht_process_oop d (map Var (seq 0 (tree_len t))) output scratch = Ok (input', es, scratch') ->
  program m t es.
Proof.
  intros I B Hn Lo Ls E. assert (Ld : dht_len d = tree_len t) by exact (@build_len expr Num_expr m t d B).
  destruct (program_exists_proof m t expr Num_expr d I B) as [es' P].
  destruct (PropsParamProof.tree_transforms expr Num_expr m t d I B) as [f F].
  destruct (tr_oop _ _ F [map Var (seq 0 (tree_len t))] output scratch) as (i' & s' & K & _).
  - now rewrite Ld.
  - split; [discriminate|]. constructor; [|constructor]. rewrite Ld. now rewrite map_length, seq_length.
  - simpl. rewrite app_nil_r, map_length, seq_length. exact Lo.
  - exact Ls.
  - simpl in K. rewrite !app_nil_r in K. rewrite E in K. injection K as _ -> _.
    rewrite (program_run m t es' d f P B F). exact P.
Qed.

(** ** multiplying by powers of two *)
Section Shift.
  Context (prec emax : Z) {Hp : Prec_gt_0 prec} {He : Prec_lt_emax prec emax}.
  Notation bf := (binary_float prec emax).
  Notation fexp := (SpecFloat.fexp prec emax).
  Notation rnd := (round radix2 fexp ZnearestE).
  Notation format := (generic_format radix2 fexp).

  Lemma fexp_FLT e : fexp e = FLT_exp (3 - emax - prec) prec e.
  Proof. unfold SpecFloat.fexp, SpecFloat.emin, FLT_exp. reflexivity. Qed.

  Lemma flx_shift r k : round radix2 (FLX_exp prec) ZnearestE (r * bpow radix2 k) = (round radix2 (FLX_exp prec) ZnearestE r * bpow radix2 k)%R.
  Proof.
    destruct (Req_dec r 0) as [->|Z]; [rewrite Rmult_0_l, round_0 by apply valid_rnd_N; ring|].
    unfold round, scaled_mantissa, cexp, FLX_exp, F2R. simpl.
    rewrite mag_mult_bpow by auto.
    replace (- (mag radix2 r + k - prec))%Z with (- k + - (mag radix2 r - prec))%Z by ring.
    replace (mag radix2 r + k - prec)%Z with (mag radix2 r - prec + k)%Z by ring.
    replace (r * bpow radix2 k * bpow radix2 (- k + - (mag radix2 r - prec)))%R with (r * bpow radix2 (- (mag radix2 r - prec)))%R.
    - rewrite bpow_plus. ring.
    - rewrite Rmult_assoc, <- bpow_plus. do 2 f_equal. ring.
  Qed.
  Lemma big_shift r k : (bpow radix2 (2 - emax) <= Rabs r)%R -> (bpow radix2 (2 - emax) <= Rabs (r * bpow radix2 k))%R ->
    rnd (r * bpow radix2 k) = (rnd r * bpow radix2 k)%R.
  Proof.
    intros H H'. change fexp with (FLT_exp (3 - emax - prec) prec).
    rewrite !round_FLT_FLX; [apply flx_shift| |].
    - replace (3 - emax - prec + prec - 1)%Z with (2 - emax)%Z by ring. exact H.
    - replace (3 - emax - prec + prec - 1)%Z with (2 - emax)%Z by ring. exact H'.
  Qed.
  Lemma up_shift r k : (0 <= k)%Z -> format r -> format (r * bpow radix2 k).
  Proof. intros Hk F. apply (mult_bpow_pos_exact_FLT radix2 (3 - emax - prec) prec); auto. Qed.
  Lemma small_sum a b : format a -> format b -> (Rabs (a + b) < bpow radix2 (2 - emax))%R -> format (a + b).
  Proof.
    intros Fa Fb H. apply (FLT_format_plus_small radix2 (3 - emax - prec) prec); auto.
    apply Rlt_le, (Rlt_le_trans _ _ _ H), bpow_le. unfold Prec_gt_0 in Hp. lia.
  Qed.
  Lemma sum_shift a b k : format a -> format b -> format (a * bpow radix2 k) -> format (b * bpow radix2 k) ->
    rnd ((a + b) * bpow radix2 k) = (rnd (a + b) * bpow radix2 k)%R.
  Proof.
    intros Fa Fb Ga Gb.
    assert (SUM : ((a + b) * bpow radix2 k = a * bpow radix2 k + b * bpow radix2 k)%R) by ring.
    assert (A : forall r, Rabs (r * bpow radix2 k) = (Rabs r * bpow radix2 k)%R).
    { intros r. rewrite Rabs_mult, (Rabs_pos_eq (bpow radix2 k)); auto using bpow_ge_0. }
    destruct (Rlt_or_le (Rabs (a + b)) (bpow radix2 (2 - emax))) as [S|S], (Rlt_or_le (Rabs ((a + b) * bpow radix2 k)) (bpow radix2 (2 - emax))) as [S'|S'].
    - rewrite (round_generic _ _ _ ((a + b) * _)), (round_generic _ _ _ (a + b)); auto using small_sum.
      rewrite SUM in *. now apply small_sum.
    - assert (0 <= k)%Z.
      { destruct (Z.le_gt_cases 0 k) as [|K]; auto. exfalso. rewrite A in S'.
        assert (bpow radix2 k <= 1)%R by (change 1%R with (bpow radix2 0); apply bpow_le; lia).
        pose proof (Rabs_pos (a + b)). pose proof (bpow_gt_0 radix2 k). nra. }
      assert (F : format (a + b)) by now apply small_sum.
      rewrite (round_generic _ _ _ ((a + b) * _)), (round_generic _ _ _ (a + b)); auto using up_shift.
    - assert (k <= 0)%Z.
      { destruct (Z.le_gt_cases k 0) as [|K]; auto. exfalso. rewrite A in S'.
        assert (1 <= bpow radix2 k)%R by (change 1%R with (bpow radix2 0); apply bpow_le; lia).
        pose proof (Rabs_pos (a + b)). nra. }
      assert (F : format ((a + b) * bpow radix2 k)) by (rewrite SUM in *; now apply small_sum).
      rewrite (round_generic _ _ _ ((a + b) * _)), (round_generic _ _ _ (a + b)); auto.
      replace (a + b)%R with ((a + b) * bpow radix2 k * bpow radix2 (- k))%R; [apply up_shift; auto; lia|].
      rewrite Rmult_assoc, <- bpow_plus, Z.add_opp_diag_r. simpl. ring.
    - now apply big_shift.
  Qed.

  Variables (lo hi : R) (k : Z).
  Hypothesis lo1 : (bpow radix2 (2 - emax) <= lo)%R.
  Hypothesis lo2 : (bpow radix2 (2 - emax) <= lo * bpow radix2 k)%R.
  Hypothesis hi1 : (hi <= bpow radix2 (emax - 1))%R.
  Hypothesis hi2 : (hi * bpow radix2 k <= bpow radix2 (emax - 1))%R.

  Lemma fits r : (Rabs r <= bpow radix2 (emax - 1))%R -> Rlt_bool (Rabs (rnd r)) (bpow radix2 emax) = true.
  Proof. intros H. apply rnd_hi; auto. Qed.
  Lemma abs_shift r : Rabs (r * bpow radix2 k) = (Rabs r * bpow radix2 k)%R.
  Proof. rewrite Rabs_mult, (Rabs_pos_eq (bpow radix2 k)); auto using bpow_ge_0. Qed.
  Lemma hi_shift r : (Rabs r <= hi)%R -> (Rabs r <= bpow radix2 (emax - 1) /\ Rabs (r * bpow radix2 k) <= bpow radix2 (emax - 1))%R.
  Proof.
    intros H. split; [lra|]. rewrite abs_shift. apply Rle_trans with (2 := hi2). apply Rmult_le_compat_r; auto using bpow_ge_0.
  Qed.

  Lemma shifted_plus (a a' b b' : bf) : shifted k a a' -> shifted k b b' -> (Rabs (B2R a + B2R b) <= hi)%R ->
    shifted k (Bplus mode_NE a b) (Bplus mode_NE a' b').
  Proof.
    intros (Fa & Fa' & Ea) (Fb & Fb' & Eb) H. destruct (hi_shift _ H) as [H1 H2].
    pose proof (Bplus_correct prec emax Hp He mode_NE a b Fa Fb) as P.
    pose proof (Bplus_correct prec emax Hp He mode_NE a' b' Fa' Fb') as Q. simpl round_mode in P, Q.
    pose proof (generic_format_B2R prec emax a) as Ga. pose proof (generic_format_B2R prec emax b) as Gb.
    pose proof (generic_format_B2R prec emax a') as Ga'. pose proof (generic_format_B2R prec emax b') as Gb'.
    replace (B2R a' + B2R b')%R with ((B2R a + B2R b) * bpow radix2 k)%R in Q by (rewrite Ea, Eb; ring).
    rewrite fits in P, Q by auto. destruct P as (P1 & P2 & _), Q as (Q1 & Q2 & _).
    split; [auto|]. split; [auto|]. rewrite P1, Q1.
    rewrite Ea, Rmult_comm in Ga'. rewrite Eb, Rmult_comm in Gb'. rewrite sum_shift by auto. apply Rmult_comm.
  Qed.
  Lemma shifted_opp (a a' : bf) : shifted k a a' -> shifted k (Bopp a) (Bopp a').
  Proof. intros (F & F' & E). unfold shifted. rewrite !is_finite_Bopp, !B2R_Bopp, E. repeat split; auto. ring. Qed.
  Lemma shifted_minus (a a' b b' : bf) : shifted k a a' -> shifted k b b' -> (Rabs (B2R a - B2R b) <= hi)%R ->
    shifted k (Bminus mode_NE a b) (Bminus mode_NE a' b').
  Proof.
    intros Ha Hb H. rewrite !ParamIeee.minus_plus. apply shifted_plus; auto using shifted_opp. rewrite B2R_Bopp. exact H.
  Qed.
  Lemma shifted_mult (c a a' : bf) : is_finite c = true -> shifted k a a' ->
    (B2R c * B2R a = 0 \/ lo <= Rabs (B2R c * B2R a) <= hi)%R -> shifted k (Bmult mode_NE c a) (Bmult mode_NE c a').
  Proof.
    intros Fc (Fa & Fa' & Ea) H.
    assert (B : (Rabs (B2R c * B2R a) <= bpow radix2 (emax - 1) /\ Rabs (B2R c * B2R a * bpow radix2 k) <= bpow radix2 (emax - 1))%R).
    { destruct H as [->|H]; [rewrite Rmult_0_l, Rabs_R0; split; apply bpow_ge_0|]. apply hi_shift. tauto. }
    pose proof (Bmult_correct prec emax Hp He mode_NE c a) as P.
    pose proof (Bmult_correct prec emax Hp He mode_NE c a') as Q. simpl round_mode in P, Q.
    replace (B2R c * B2R a')%R with (B2R c * B2R a * bpow radix2 k)%R in Q by (rewrite Ea; ring).
    rewrite fits in P, Q by tauto. destruct P as (P1 & P2 & _), Q as (Q1 & Q2 & _).
    rewrite Fc, Fa in P2. rewrite Fc, Fa' in Q2. split; [auto|]. split; [auto|]. rewrite P1, Q1.
    destruct H as [->|[H _]]; [rewrite Rmult_0_l, round_0 by apply valid_rnd_N; ring|].
    rewrite big_shift; [apply Rmult_comm|lra|]. rewrite abs_shift.
    apply (Rle_trans _ _ _ lo2). apply Rmult_le_compat_r; auto using bpow_ge_0.
  Qed.

  Context (N : Num bf).
  Hypothesis Nz : nzero = B754_zero false.
  Hypothesis Na : forall a b, nadd a b = Bplus mode_NE a b.
  Hypothesis Ns : forall a b, nsub a b = Bminus mode_NE a b.
  Hypothesis Nm : forall a b, nmul a b = Bmult mode_NE a b.
  Hypothesis No : forall a, nopp a = Bopp a.

  Lemma eval_fixed (x y : list bf) e : fixed e -> eval x e = eval y e.
  Proof.
    induction e; simpl; try contradiction; auto; intros H.
    - destruct H. now rewrite IHe1, IHe2.
    - destruct H. now rewrite IHe1, IHe2.
    - destruct H. now rewrite IHe1, IHe2.
    - now rewrite IHe.
  Qed.
  Lemma shifted_zero : shifted k (B754_zero false : bf) (B754_zero false).
  Proof. split; [|split]; auto. simpl. ring. Qed.
  Lemma shifted_nth (x y : list bf) j : Forall2 (shifted k) x y -> shifted k (nth j x (B754_zero false)) (nth j y (B754_zero false)).
  Proof.
    intros H. revert j. induction H; intros [|j]; simpl; auto using shifted_zero.
  Qed.
  Lemma eval_shift (x y : list bf) e : Forall2 (shifted k) x y -> calm lo hi x e -> shifted k (eval x e) (eval y e).
  Proof.
    intros H. induction e; cbn [eval calm]; try contradiction.
    - intros _. rewrite Nz. now apply shifted_nth.
    - intros _. rewrite Nz. apply shifted_zero.
    - intros (A & B & C). rewrite !Na. apply shifted_plus; auto.
    - intros (A & B & C). rewrite !Ns. apply shifted_minus; auto.
    - intros ([[A B]|[A B]] & F1 & F2 & C); rewrite !Nm.
      + rewrite <- (eval_fixed x y e1 A). apply shifted_mult; auto.
      + rewrite <- (eval_fixed x y e2 B). rewrite (ParamIeee.mult_comm _ _ (eval x e1)), (ParamIeee.mult_comm _ _ (eval y e1)).
        apply shifted_mult; auto. rewrite Rmult_comm. exact C.
    - intros A. rewrite !No. apply shifted_opp. auto.
  Qed.
  Lemma evals_shift (x y : list bf) es : Forall2 (shifted k) x y -> Forall (calm lo hi x) es ->
    Forall2 (shifted k) (map (eval x) es) (map (eval y) es).
  Proof. intros H C. induction C; simpl; constructor; auto using eval_shift. Qed.
End Shift.

Lemma shift32_proof L m t es d f : program m t es -> @build f32 (Num_f32 L) m t = Ok d -> transforms d f ->
  forall k lo hi x y, (bpow radix2 (-126) <= lo)%R -> (bpow radix2 (-126) <= lo * bpow radix2 k)%R ->
  (hi <= bpow radix2 127)%R -> (hi * bpow radix2 k <= bpow radix2 127)%R ->
  length x = dht_len d -> Forall2 (shifted k) x y -> Forall (@calm 24 128 (Num_f32 L) lo hi x) es ->
  Forall2 (shifted k) (f x) (f y).
Proof.
  intros (_ & _ & P) B F k lo hi x y L1 L2 H1 H2 Lx S C.
  rewrite (P f32 (Num_f32 L) d f B F x Lx), (P f32 (Num_f32 L) d f B F y).
  2: { rewrite <- Lx. symmetry. clear - S. induction S; simpl; congruence. }
  apply (@evals_shift 24 128 eq_refl eq_refl lo hi k); auto.
Qed.
Lemma shift64_proof L m t es d f : program m t es -> @build f64 (Num_f64 L) m t = Ok d -> transforms d f ->
  forall k lo hi x y, (bpow radix2 (-1022) <= lo)%R -> (bpow radix2 (-1022) <= lo * bpow radix2 k)%R ->
  (hi <= bpow radix2 1023)%R -> (hi * bpow radix2 k <= bpow radix2 1023)%R ->
  length x = dht_len d -> Forall2 (shifted k) x y -> Forall (@calm 53 1024 (Num_f64 L) lo hi x) es ->
  Forall2 (shifted k) (f x) (f y).
Proof.
  intros (_ & _ & P) B F k lo hi x y L1 L2 H1 H2 Lx S C.
  rewrite (P f64 (Num_f64 L) d f B F x Lx), (P f64 (Num_f64 L) d f B F y).
  2: { rewrite <- Lx. symmetry. clear - S. induction S; simpl; congruence. }
  apply (@evals_shift 53 1024 eq_refl eq_refl lo hi k); auto.
Qed.
