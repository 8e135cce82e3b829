(** * Rounding errors of the naive algorithm and of the butterflies *)
From Verif Require Import Lemmas Contract ButterfliesProof NxnInst RealDHT ButterfliesReal.
From Verif Require Export FloatProof.
From Coq Require Import Reals Lra Lia List Arith Psatz.
Import ListNotations.
Local Open Scope R_scope.

Section Leaves.
  Context {V : Type} (Fm : fmt V) (N : Num V) (RN : rounded Fm N).
  Notation u := (fu Fm). Notation tau := (ftau Fm). Notation tkf := (tkf Fm). Notation tkn := (tkn Fm). Notation ckn := (ckn Fm). Notation tk := (tk Fm).
  Let Hu : 0 <= u := r_u _ _ RN.
  Let Ht : 0 <= tau := r_tau _ _ RN.

  Lemma naive_tkf n : usz n -> tkf (@naive_fun V N n) n (fac u tau (n + 2) 1) 2.
  Proof.
    intros Us p M a x Hp La Lx T k Hk.
    assert (Hn : (0 < n)%nat) by lia.
    rewrite <- nth_dht_spec by lia. rewrite <- (naive_real rh n x Hn Lx).
    unfold naive_fun. rewrite !nth_map_seq by auto. rewrite Nat.add_0_l.
    cut (forall m, (S m <= n)%nat -> tkn p (S m + 2) 1 (2 * rsum (S m) M)
      (fold_left (fun acc j => @nadd V N acc (@nmul V N (@compute_dht_twiddle V N ((j * k) mod n) n) (nth j a (@nzero V N)))) (seq 0 (S m)) (@nzero V N))
      (fold_left (fun acc j => @nadd R (RNum rh) acc (@nmul R (RNum rh) (@compute_dht_twiddle R (RNum rh) ((j * k) mod n) n) (nth j x (@nzero R (RNum rh))))) (seq 0 (S m)) (@nzero R (RNum rh)))).
    { intros E. destruct n as [|m]; [lia|]. apply E; auto. }
    assert (P : forall j, (j < n)%nat -> tkn p 2 1 (2 * M j) (@nmul V N (@compute_dht_twiddle V N ((j * k) mod n) n) (nth j a (@nzero V N)))
      (@nmul R (RNum rh) (@compute_dht_twiddle R (RNum rh) ((j * k) mod n) n) (nth j x 0))).
    { intros j Hj. pose proof (Nat.mod_upper_bound (j * k) n ltac:(lia)).
      pose proof (ckn_dht _ _ RN ((j * k) mod n) n ltac:(lia) ltac:(lia) Us) as C. cbn [nmul RNum].
      pose proof (tkn_in Fm _ _ _ _ (T j Hj)) as Tj. apply (tkn_cmul _ _ RN _ _ _ _ _ _ _ _ _ _ _ C Tj). }
    induction m as [|m IH]; intros Hm.
    - cbn [seq fold_left rsum]. cbn [nadd nzero RNum].
      replace (2 * (0 + M 0%nat)) with (2 * M 0%nat) by ring.
      specialize (P 0%nat ltac:(lia)). unfold FloatProof.tkn in *. replace (fac u tau (1 + 2) 1) with (fac u tau 2 1 * (1 + u)) by (unfold fac; simpl; ring).
      rewrite <- Rmult_assoc. now apply tk_zadd.
    - rewrite seq_S, !fold_left_app. cbn [fold_left]. rewrite Nat.add_0_l.
      specialize (IH ltac:(lia)). specialize (P (S m) ltac:(lia)). cbn [nadd nzero RNum] in *.
      eapply (tkn_mono _ _ RN); [exact Hp| | | |eapply tkn_add; [exact RN|exact Hp|exact IH|exact P]]; try (cbn; lia).
      cbn [rsum]. lra.
  Qed.

  Ltac inputs n T :=
    let rec go j :=
      lazymatch j with
      | O => idtac
      | S ?i => let H := fresh "In" in
                pose proof (tkn_in Fm _ _ _ _ (T i ltac:(lia))) as H; cbn [nth] in H;
                let P := fresh "Pos" in pose proof (tk_pos _ _ _ _ _ (T i ltac:(lia))) as P; go i
      end in go n.
  (** the kernels with abstract twiddles *)
  Ltac cells n k :=
    lazymatch n with
    | O => exfalso; lia
    | S ?i => destruct k as [|k];
        [cbn [nth]; eapply (tkn_mono _ _ RN); [eassumption| | | |expr]; [cbn; lia|cbn; lia|cbn -[Rmult Rplus]; lra]
        |cells i k]
    end.
  Ltac kern n a La x Lx T k :=
    list_of n a La; list_of n x Lx; inputs n T; clear T;
    unfold bf_fun; cbn -[Rmult Rplus Rminus Ropp IZR nth]; cells n k.

  (** [fa] on computed values against [fx] on exact ones *)
  Definition near (n : nat) (fa : list V -> list V) (fx : list R -> list R) (A B : nat) (G : R) : Prop :=
    forall p M a x k, 1 <= p -> length a = n -> length x = n -> (k < n)%nat ->
    (forall j, (j < n)%nat -> tk p (M j) (nth j a nzero) (nth j x 0)) ->
    tkn p A B (G * rsum n M) (nth k (fa a) nzero) (nth k (fx x) 0).

  Lemma bf2_near : near 2 (bf_fun (@bf2_contig V N)) (bf_fun (@bf2_contig R (RNum rh))) 1 0 1.
  Proof. intros p M a x k Hp La Lx Hk T. kern 2%nat a La x Lx T k. Qed.
  Lemma bf3_near c s c' s' : ckn 0 1 1 c c' -> ckn 0 1 1 s s' ->
    near 3 (bf_fun (@bf3_contig V N (Cplx c s))) (bf_fun (@bf3_contig R (RNum rh) (Cplx c' s'))) 4 1 2.
  Proof. intros C S p M a x k Hp La Lx Hk T. kern 3%nat a La x Lx T k. Qed.
  Lemma bf4_near : near 4 (bf_fun (@bf4_contig V N)) (bf_fun (@bf4_contig R (RNum rh))) 2 0 1.
  Proof. intros p M a x k Hp La Lx Hk T. kern 4%nat a La x Lx T k. Qed.
  Lemma bf5_near c s c' s' d t d' t' : ckn 0 1 1 c c' -> ckn 0 1 1 s s' -> ckn 0 1 1 d d' -> ckn 0 1 1 t t' ->
    near 5 (bf_fun (@bf5_contig V N (Cplx c s, Cplx d t))) (bf_fun (@bf5_contig R (RNum rh) (Cplx c' s', Cplx d' t'))) 5 1 2.
  Proof. intros C S D S' p M a x k Hp La Lx Hk T. kern 5%nat a La x Lx T k. Qed.
  Lemma bf6_near c s c' s' : ckn 0 1 1 c c' -> ckn 0 1 1 s s' ->
    near 6 (bf_fun (@bf6_contig V N (Cplx c s))) (bf_fun (@bf6_contig R (RNum rh) (Cplx c' s'))) 7 2 4.
  Proof. intros C S p M a x k Hp La Lx Hk T. kern 6%nat a La x Lx T k. Qed.
  Lemma bf8_near c c' : ckn 1 1 2 c c' ->
    near 8 (bf_fun (@bf8_contig V N c)) (bf_fun (@bf8_contig R (RNum rh) c')) 5 1 2.
  Proof. intros C p M a x k Hp La Lx Hk T. kern 8%nat a La x Lx T k. Qed.
  Lemma bf9_near t t' c1 s1 c1' s1' c2 s2 c2' s2' c4 s4 c4' s4' :
    ckn 1 1 2 t t' -> ckn 0 1 1 c1 c1' -> ckn 0 1 1 s1 s1' -> ckn 0 1 1 c2 c2' -> ckn 0 1 1 s2 s2' ->
    ckn 0 1 1 c4 c4' -> ckn 0 1 1 s4 s4' ->
    near 9 (bf_fun (@bf9_contig V N (Bf9 t (Cplx c1 s1) (Cplx c2 s2) (Cplx c4 s4))))
           (bf_fun (@bf9_contig R (RNum rh) (Bf9 t' (Cplx c1' s1') (Cplx c2' s2') (Cplx c4' s4')))) 9 1 12.
  Proof. intros C1 C2 C3 C4 C5 C6 C7 p M a x k Hp La Lx Hk T. kern 9%nat a La x Lx T k. Qed.
  Lemma bf16_near t t' c s c' s' : ckn 1 1 2 t t' -> ckn 0 1 1 c c' -> ckn 0 1 1 s s' ->
    near 16 (bf_fun (@bf16_contig V N (t, Cplx c s))) (bf_fun (@bf16_contig R (RNum rh) (t', Cplx c' s'))) 6 1 2.
  Proof. intros C1 C2 C3 p M a x k Hp La Lx Hk T. kern 16%nat a La x Lx T k. Qed.

  Lemma near_tkf n fa fx A B G : (0 < n)%nat -> (forall x, length x = n -> fx x = dht_spec x) -> near n fa fx A B G ->
    tkf fa n (fac u tau A B) G.
  Proof.
    intros Hn E F p M a x Hp La Lx T k Hk. rewrite <- nth_dht_spec by lia. rewrite <- E by auto. now apply F.
  Qed.
  Lemma tkf_gain f n phi G G' : 1 <= phi -> G <= G' -> tkf f n phi G -> tkf f n phi G'.
  Proof.
    intros P L F p M a x Hp La Lx T k Hk. specialize (F p M a x Hp La Lx T k Hk).
    apply (tk_mono Fm (p * phi) _ (G * rsum n M)); auto; try lra; try nra.
    apply Rmult_le_compat_r; auto.
    clear - T. revert T. induction n; intros T; simpl; [lra|].
    pose proof (tk_pos _ _ _ _ _ (T n ltac:(lia))). specialize (IHn ltac:(intros; apply T; lia)). lra.
  Qed.

  Lemma bf1_tkf : tkf (fun x => x) 1 1 2.
  Proof.
    intros p M a x Hp La Lx T k Hk. assert (k = 0%nat) by lia. subst k. unfold dht_at. rewrite Lx. cbn [rsum].
    rewrite Nat.mul_0_l, ang_0, cas_def, cos_0, sin_0. pose proof (T 0%nat ltac:(lia)) as T0. pose proof (tk_pos _ _ _ _ _ T0).
    replace (0 + nth 0 x 0 * (1 + 0)) with (nth 0 x 0) by ring.
    apply (tk_mono Fm p _ (M 0%nat)); auto; lra.
  Qed.
  Ltac bft r := eapply near_tkf; [lia|intros; apply (r rh); auto|].
  Lemma bf2_tkf : tkf (bf_fun (@bf2_contig V N)) 2 (fac u tau 1 0) 2.
  Proof. apply (tkf_gain _ _ _ 1); [apply (fac_1 _ _ RN)|lra|]. bft bf2_real. apply bf2_near. Qed.
  Lemma bf3_tkf : tkf (bf_fun (bf3_contig (@bf3_new V N))) 3 (fac u tau 4 1) 2.
  Proof. bft bf3_real. apply bf3_near; apply (ckn_dft _ _ RN 1 3 ltac:(lia) ltac:(lia) eq_refl). Qed.
  Lemma bf4_tkf : tkf (bf_fun (@bf4_contig V N)) 4 (fac u tau 2 0) 2.
  Proof. apply (tkf_gain _ _ _ 1); [apply (fac_1 _ _ RN)|lra|]. bft bf4_real. apply bf4_near. Qed.
  Lemma bf5_tkf : tkf (bf_fun (bf5_contig (@bf5_new V N))) 5 (fac u tau 5 1) 2.
  Proof. bft bf5_real. apply bf5_near; try apply (ckn_dft _ _ RN 1 5 ltac:(lia) ltac:(lia) eq_refl); apply (ckn_dft _ _ RN 2 5 ltac:(lia) ltac:(lia) eq_refl). Qed.
  Lemma bf6_tkf : tkf (bf_fun (bf6_contig (@bf3_new V N))) 6 (fac u tau 7 2) 4.
  Proof. bft bf6_real. apply bf6_near; apply (ckn_dft _ _ RN 1 3 ltac:(lia) ltac:(lia) eq_refl). Qed.
  Lemma bf8_tkf : tkf (bf_fun (bf8_contig (@bf8_new V N))) 8 (fac u tau 5 1) 2.
  Proof. bft bf8_real. apply bf8_near; apply (ckn_dht _ _ RN 1 8 ltac:(lia) ltac:(lia) eq_refl). Qed.
  Lemma bf9_tkf : tkf (bf_fun (bf9_contig (@bf9_new V N))) 9 (fac u tau 9 1) 12.
  Proof.
    bft bf9_real. apply bf9_near; try apply (ckn_dft _ _ RN 1 9 ltac:(lia) ltac:(lia) eq_refl); try apply (ckn_dft _ _ RN 2 9 ltac:(lia) ltac:(lia) eq_refl); try apply (ckn_dft _ _ RN 4 9 ltac:(lia) ltac:(lia) eq_refl).
    apply (ckn_dht_minus _ _ RN); [lia|lia|reflexivity].
  Qed.
  Lemma bf16_tkf : tkf (bf_fun (bf16_contig (@bf16_new V N))) 16 (fac u tau 6 1) 2.
  Proof. bft bf16_real. apply bf16_near; [apply (ckn_dht _ _ RN 1 8 ltac:(lia) ltac:(lia) eq_refl)|apply (ckn_dft _ _ RN 1 16 ltac:(lia) ltac:(lia) eq_refl)..]. Qed.
End Leaves.
