(** * Proofs of the properties in PropsFloat.v *)
From Verif Require Export FloatTree IeeeProof.
From Verif Require Import DHTTheory FloatProof RealDHT NumSpec ConstProof ButterfliesProof ButterfliesReal Radix4Real.
From Coq Require Import Reals Lra Lia NArith Psatz.
From Coq Require Floats.SpecFloat.
Local Open Scope R_scope.

Lemma fac_pw u t a b : (1 + u) ^ a * (1 + t) ^ b = fac u t a b.
Proof. reflexivity. Qed.

Section Float.
  Context {T : Type} (F : fmt T) (N : Num T) (RN : rounded F N).
  Notation err a b := ((1 + fu F) ^ a * (1 + ftau F) ^ b).
  Local Existing Instance N.
  Lemma C34_proof n : usz n -> approximates F N (dht_naive n) (err (n + 2) 1) 2.
  Proof. exact (naive_ap F N RN n). Qed.
  Lemma C39_proof :
    approximates F N butterfly1 1 2 /\ approximates F N butterfly2 (err 1 0) 2 /\ approximates F N butterfly3 (err 4 1) 2 /\
    approximates F N butterfly4 (err 2 0) 2 /\ approximates F N butterfly5 (err 5 1) 2 /\ approximates F N butterfly6 (err 7 2) 4 /\
    approximates F N butterfly8 (err 5 1) 2 /\ approximates F N butterfly9 (err 9 1) 12 /\ approximates F N butterfly16 (err 6 1) 2.
  Proof.
    split; [replace 1 with (fac (fu F) (ftau F) 0 0) by (unfold fac; simpl; lra); exact (bf1_ap F N)|].
    repeat (split; [first [exact (bf2_ap F N RN)|exact (bf3_ap F N RN)|exact (bf4_ap F N RN)|exact (bf5_ap F N RN)
      |exact (bf6_ap F N RN)|exact (bf8_ap F N RN)|exact (bf9_ap F N RN)]|]). exact (bf16_ap F N RN).
  Qed.
  Lemma C40_mixed_proof dw dh phiw Gw phih Gh : usz (dht_len dw * dht_len dh * 8) ->
    approximates F N dw phiw Gw -> approximates F N dh phih Gh ->
    approximates F N (mixed_radix dw dh) (phih * phiw * (1 + frho F) * err 4 1) (4 * Gw * Gh).
  Proof. exact (mixed_ap F N RN dw dh phiw Gw phih Gh). Qed.
  Lemma C40_2_proof d phi G : approximates F N d phi G -> (dht_inplace_scratch d <= 2 * dht_len d)%nat -> dht_oop_scratch d = 0%nat -> usz (8 * dht_len d) -> approximates F N (mixed_radix_2xn d) (phi * err 3 1) (2 * G).
  Proof. intros A B C. exact (two_ap F N RN d phi G A (conj B C)). Qed.
  Lemma C40_3_proof d phi G : approximates F N d phi G -> (dht_inplace_scratch d <= 3 * dht_len d)%nat -> dht_oop_scratch d = 0%nat -> usz (3 * dht_len d * 8) ->
    approximates F N (mixed_radix_3xn d) (phi * err 4 1 * (1 + frho F) * err 4 1) (8 * G).
  Proof. intros A B C. exact (three_ap F N RN d phi G A (conj B C)). Qed.
  Lemma C40_4_proof d phi G : approximates F N d phi G -> (dht_inplace_scratch d <= 4 * dht_len d)%nat -> dht_oop_scratch d = 0%nat -> usz (8 * dht_len d) -> approximates F N (mixed_radix_4xn d) (phi * err 4 1) (2 * G).
  Proof. intros A B C. exact (four_ap F N RN d phi G A (conj B C)). Qed.
  Lemma C40_5_proof d phi G : approximates F N d phi G -> (dht_inplace_scratch d <= 5 * dht_len d)%nat -> dht_oop_scratch d = 0%nat -> usz (5 * dht_len d * 8) ->
    approximates F N (mixed_radix_5xn d) (phi * err 5 1 * (1 + frho F) * err 4 1) (8 * G).
  Proof. intros A B C. exact (five_ap F N RN d phi G A (conj B C)). Qed.
  Lemma C40_6_proof d phi G : approximates F N d phi G -> (dht_inplace_scratch d <= 6 * dht_len d)%nat -> dht_oop_scratch d = 0%nat -> usz (6 * dht_len d * 8) ->
    approximates F N (mixed_radix_6xn d) (phi * err 7 2 * (1 + frho F) * err 4 1) (16 * G).
  Proof. intros A B C. exact (six_ap F N RN d phi G A (conj B C)). Qed.
  Lemma C40_split_proof dq dh phiq Gq phih Gh : approximates F N dq phiq Gq -> approximates F N dh phih Gh ->
    dht_len dh = (dht_len dq * 2)%nat -> usz (dht_len dq * 4) ->
    (dht_inplace_scratch dh <= dht_len dh)%nat -> (dht_inplace_scratch dq <= dht_len dq * 4)%nat -> dht_oop_scratch dq = 0%nat ->
    exists d, split_radix dq dh = Ok d /\
      approximates F N d (Rmax (phih * err 1 0) (phiq * err 4 1)) (Rmax Gh (2 * Gq)).
  Proof. exact (split_ap F N RN dq dh phiq Gq phih Gh). Qed.
  Lemma C40_rader_proof m d phi G : approximates F N d phi G -> nprime (N.of_nat (dht_len d + 1)) -> (2 <= dht_len d)%nat ->
    (N.of_nat (dht_len d + 1) <= 2 ^ 32)%N -> err 4 2 * phi * (4 * G) <= fhi F ->
    exists D, raders m d = Ok D /\ approximates F N D (phi * phi * phi * err 6 2) (4 * INR (dht_len d) * (G * G * G)).
  Proof. exact (raders_ap F N RN m d phi G). Qed.
  Lemma C40_radix4_proof k : (k <= 6)%nat -> exists D, radix4 (2 ^ k) = Ok D /\ approximates F N D (err 10 2) 4.
  Proof. exact (radix4_upto64_ap F N RN k). Qed.
  Lemma C41_proof m t d : in_range t -> representable F t -> build m t = Ok d ->
    approximates F N d (tree_phi (fu F) (ftau F) (frho F) t) (gain t).
  Proof. exact (tree_ap F N RN m t d). Qed.
  Lemma C43_proof d phi G : approximates F N d phi G -> round_trip F N d phi G.
  Proof.
    intros A. destruct (approx_elim _ _ _ _ _ A) as (P & Q & f & O & K). exists f.
    split; [exact (proj1 (transforms_ok _ _) O)|]. intros x k Lx Hk Fx Hc.
    set (n := dht_len d) in *. set (y := map (fval F) x). assert (Ly : length y = n) by (unfold y; now rewrite map_length).
    assert (T1 : forall j, (j < n)%nat -> tk F 1 (Rmax (Rabs (nth j y 0)) (flo F)) (nth j x nzero) (nth j y 0)).
    { intros j Hj. unfold y. destruct (r_zero _ _ RN) as [_ Z]. 
      rewrite <- Z, map_nth. apply tk_exact. rewrite Forall_forall in Fx. apply Fx, nth_In. lia. }
    set (M := fun j => Rmax (Rabs (nth j y 0)) (flo F)) in *.
    assert (S : size F x = rsum n M) by (unfold size, M; now rewrite Lx).
    assert (T2 : forall j, (j < n)%nat -> tk F (1 * phi) (G * rsum n M) (nth j (f x) nzero) (nth j (dht_spec y) 0)).
    { intros j Hj. rewrite nth_dht_spec by lia. apply K; auto. lra. }
    assert (T3 : tk F (1 * phi * phi) (G * rsum n (fun _ => G * rsum n M)) (nth k (f (f x)) nzero) (dht_at (dht_spec y) k)).
    { apply (K _ (fun _ => G * rsum n M)); auto; [lra|apply O; auto|rewrite dht_spec_length; auto]. }
    destruct T3 as (_ & _ & _ & T3).
    assert (E : G * rsum n (fun _ => G * rsum n M) = INR n * (G * G * size F x)) by (rewrite rsum_const, S; ring).
    rewrite E, Rmult_1_l in T3. destruct (T3 Hc) as (Fz & Ez & _). split; auto.
    rewrite <- nth_dht_spec, dht_spec_involution in Ez by (rewrite dht_spec_length; lia).
    rewrite Ly in Ez. rewrite <- (Rmult_0_r (INR n)), (map_nth (fun v => INR n * v)) in Ez.
    replace (nth k y 0) with (fval F (nth k x nzero)) in Ez; [exact Ez|].
    unfold y. destruct (r_zero _ _ RN) as [_ Z]. now rewrite <- Z, map_nth.
  Qed.
End Float.

(** ** C41: coverage and size of the bound *)
Lemma C41_covers_proof T (NT : Num T) (m : profile) (d : Dht T) : assembled m ranged d <-> exists t, in_range t /\ build m t = Ok d.
Proof. split; [apply assembled_build|intros (t & I & E); eapply build_assembled; eauto]. Qed.
Lemma C41_length_proof T (NT : Num T) (m : profile) t (d : Dht T) : build m t = Ok d -> dht_len d = tree_len t.
Proof. apply build_len. Qed.
Lemma pow_exp v n : 0 <= v -> (1 + v) ^ n <= exp (INR n * v).
Proof.
  intros P. induction n as [|n IH]; [simpl; rewrite Rmult_0_l, exp_0; lra|].
  rewrite S_INR. replace ((INR n + 1) * v) with (v + INR n * v) by ring. rewrite exp_plus. simpl.
  apply Rmult_le_compat; auto; [lra|apply pow_le; lra|]. destruct (Req_dec v 0) as [->|Z]; [rewrite exp_0; lra|].
  left. apply exp_ineq1. auto.
Qed.
Lemma exp_small s : 0 <= s <= / 2 -> exp s <= 1 + 2 * s.
Proof.
  intros H. assert (E : exp s * exp (- s) = 1) by (rewrite <- exp_plus, Rplus_opp_r; apply exp_0).
  assert (L : 1 - s <= exp (- s)).
  { destruct (Req_dec s 0) as [->|Z]; [rewrite Ropp_0, exp_0; lra|]. left. replace (1 - s) with (1 + - s) by ring. apply exp_ineq1. lra. }
  pose proof (exp_pos s). assert (exp s * (1 - s) <= 1) by nra. 
  apply (Rmult_le_reg_r (1 - s)); [lra|]. nra.
Qed.
Lemma C41_linear_proof u tau rho t : 0 <= u -> 0 <= tau -> 0 <= rho ->
  let '(a, b, c) := roundings t in
  let s := INR a * u + INR b * tau + INR c * rho in
  s <= / 2 -> tree_phi u tau rho t - 1 <= 2 * s.
Proof.
  intros P1 P2 P3. unfold tree_phi. destruct (roundings t) as [[a b] c]. cbv iota beta.
  set (s := INR a * u + INR b * tau + INR c * rho). intros Hs.
  assert (Q : forall n v, 0 <= v -> 0 <= INR n * v) by (intros; apply Rmult_le_pos; auto; apply pos_INR).
  assert (E : (1 + u) ^ a * (1 + tau) ^ b * (1 + rho) ^ c <= exp s).
  { unfold s. rewrite !exp_plus.
    assert (0 <= (1 + u) ^ a) by (apply pow_le; lra). assert (0 <= (1 + tau) ^ b) by (apply pow_le; lra). assert (0 <= (1 + rho) ^ c) by (apply pow_le; lra).
    apply Rmult_le_compat; auto using pow_exp. apply Rmult_le_pos; auto. apply Rmult_le_compat; auto using pow_exp. }
  pose proof (exp_small s). assert (0 <= s) by (unfold s; pose proof (Q a u P1); pose proof (Q b tau P2); pose proof (Q c rho P3); lra). lra.
Qed.

(** ** C44 *)
Section Ints.
  Context {T : Type} (F : fmt T) (N : Num T) (B : R).
  Local Existing Instance N.
  Hypothesis Hadd : forall a b y z, ffin F a -> ffin F b -> fval F a = IZR y -> fval F b = IZR z -> Rabs (IZR y + IZR z) <= B ->
    ffin F (nadd a b) /\ fval F (nadd a b) = IZR (y + z).
  Hypothesis Hsub : forall a b y z, ffin F a -> ffin F b -> fval F a = IZR y -> fval F b = IZR z -> Rabs (IZR y - IZR z) <= B ->
    ffin F (nsub a b) /\ fval F (nsub a b) = IZR (y - z).
  Let it (v : T) (e : R) := ffin F v /\ fval F v = e /\ exists z, e = IZR z.
  Let it_add a b x y : it a x -> it b y -> Rabs (x + y) <= B -> it (nadd a b) (x + y).
  Proof.
    intros (F1 & E1 & z1 & ->) (F2 & E2 & z2 & ->) H. destruct (Hadd a b z1 z2) as [F3 E3]; auto.
    rewrite <- plus_IZR. split; [|split]; eauto.
  Qed.
  Let it_sub a b x y : it a x -> it b y -> Rabs (x - y) <= B -> it (nsub a b) (x - y).
  Proof.
    intros (F1 & E1 & z1 & ->) (F2 & E2 & z2 & ->) H. destruct (Hsub a b z1 z2) as [F3 E3]; auto.
    rewrite <- minus_IZR. split; [|split]; eauto.
  Qed.
  Lemma ints_1 : exact_on_integers F B butterfly1.
  Proof.
    exists (fun x => x). split; [exact (proj1 (transforms_ok _ _) butterfly1_ok)|].
    intros [|v [|]] L [I _]; try discriminate L. split; [eapply Forall_impl; [|exact I]; simpl; tauto|].
    apply Radix4Real.bf1_real. now rewrite map_length.
  Qed.
  Let it_in x v : integral F B x -> In v x -> it v (fval F v).
  Proof.
    intros [I _] H. rewrite Forall_forall in I. destruct (I v H) as (A & z & E). split; [|split]; eauto.
  Qed.
  Lemma ints_2 : exact_on_integers F B butterfly2.
  Proof.
    exists (bf_fun bf2_contig). split; [exact (proj1 (transforms_ok _ _) (proj1 (butterfly_ok 2 _ ltac:(lia) bf2_kernel)))|].
    intros [|a [|b [|]]] L I; try discriminate L. change (bf_fun bf2_contig [a; b]) with [nadd a b; nsub a b].
    cbn [map]. rewrite <- (bf2_real rh) by reflexivity.
    change (@bf_fun R (@bf2_contig R (RNum rh)) [fval F a; fval F b]) with [fval F a + fval F b; fval F a - fval F b].
    assert (Ia : it a (fval F a)) by (apply (it_in _ _ I); simpl; auto). assert (Ib : it b (fval F b)) by (apply (it_in _ _ I); simpl; auto).
    destruct I as [_ S]. unfold norm1 in S. cbn [map length rsum nth] in S.
    set (x := fval F a) in *. set (y := fval F b) in *.
    assert (K : forall z, - (Rabs x + Rabs y) <= z <= Rabs x + Rabs y -> Rabs z <= B) by (intros z Hz; apply Rle_trans with (Rabs x + Rabs y); [apply Rabs_le; lra|lra]).
    pose proof (Rle_abs x). pose proof (Rle_abs y). pose proof (Rle_abs (- x)) as X. pose proof (Rle_abs (- y)) as Y. rewrite Rabs_Ropp in X, Y.
    destruct (it_add _ _ _ _ Ia Ib) as (F1 & E1 & _); [apply K; lra|]. destruct (it_sub _ _ _ _ Ia Ib) as (F2 & E2 & _); [apply K; lra|].
    split; [auto|]. now rewrite E1, E2.
  Qed.
  Lemma ints_4 : exact_on_integers F B butterfly4.
  Proof.
    exists (bf_fun bf4_contig). split; [exact (proj1 (transforms_ok _ _) (proj1 (butterfly_ok 4 _ ltac:(lia) bf4_kernel)))|].
    intros [|a [|b [|c [|d [|]]]]] L I; try discriminate L.
    change (bf_fun bf4_contig [a; b; c; d]) with
      [nadd (nadd a c) (nadd b d); nadd (nsub a c) (nsub b d); nsub (nadd a c) (nadd b d); nsub (nsub a c) (nsub b d)].
    cbn [map]. rewrite <- (bf4_real rh) by reflexivity.
    assert (Ia : it a (fval F a)) by (apply (it_in _ _ I); simpl; auto). assert (Ib : it b (fval F b)) by (apply (it_in _ _ I); simpl; auto).
    assert (Ic : it c (fval F c)) by (apply (it_in _ _ I); simpl; auto). assert (Id : it d (fval F d)) by (apply (it_in _ _ I); simpl; auto).
    destruct I as [_ S]. unfold norm1 in S. cbn [map length rsum nth] in S.
    set (x := fval F a) in *. set (y := fval F b) in *. set (z := fval F c) in *. set (w := fval F d) in *.
    change (@bf_fun R (@bf4_contig R (RNum rh)) [x; y; z; w]) with
      [x + z + (y + w); x - z + (y - w); x + z - (y + w); x - z - (y - w)].
    assert (K : forall r, - (Rabs x + Rabs y + Rabs z + Rabs w) <= r <= Rabs x + Rabs y + Rabs z + Rabs w -> Rabs r <= B)
      by (intros r Hr; apply Rle_trans with (Rabs x + Rabs y + Rabs z + Rabs w); [apply Rabs_le; lra|lra]).
    assert (A : forall r, - Rabs r <= r <= Rabs r) by (intros r; pose proof (Rle_abs r); pose proof (Rle_abs (- r)) as X; rewrite Rabs_Ropp in X; lra).
    pose proof (A x). pose proof (A y). pose proof (A z). pose proof (A w).
    assert (P1 : it (nadd a c) (x + z)) by (apply it_add; auto; apply K; lra). assert (P2 : it (nadd b d) (y + w)) by (apply it_add; auto; apply K; lra).
    assert (P3 : it (nsub a c) (x - z)) by (apply it_sub; auto; apply K; lra). assert (P4 : it (nsub b d) (y - w)) by (apply it_sub; auto; apply K; lra).
    destruct (it_add _ _ _ _ P1 P2) as (F1 & E1 & _); [apply K; lra|]. destruct (it_add _ _ _ _ P3 P4) as (F2 & E2 & _); [apply K; lra|].
    destruct (it_sub _ _ _ _ P1 P2) as (F3 & E3 & _); [apply K; lra|]. destruct (it_sub _ _ _ _ P3 P4) as (F4 & E4 & _); [apply K; lra|].
    split; [auto|]. now rewrite E1, E2, E3, E4.
  Qed.
End Ints.
Lemma C44_f32_proof L : let N := Num_f32 L in
  exact_on_integers F32 (bpow radix2 24) (@butterfly1 f32) /\ exact_on_integers F32 (bpow radix2 24) (@butterfly2 f32 N) /\
  exact_on_integers F32 (bpow radix2 24) (@butterfly4 f32 N).
Proof.
  split; [|split]; [apply ints_1|apply ints_2|apply ints_4].
  all: cbn [F32 ffin fval Num_f32 nadd nsub]; intros; first [apply (int_plus 24 128); auto|apply (int_minus 24 128); auto].
Qed.
Lemma C44_f64_proof L : let N := Num_f64 L in
  exact_on_integers F64 (bpow radix2 53) (@butterfly1 f64) /\ exact_on_integers F64 (bpow radix2 53) (@butterfly2 f64 N) /\
  exact_on_integers F64 (bpow radix2 53) (@butterfly4 f64 N).
Proof.
  split; [|split]; [apply ints_1|apply ints_2|apply ints_4].
  all: cbn [F64 ffin fval Num_f64 nadd nsub]; intros; first [apply (int_plus 53 1024); auto|apply (int_minus 53 1024); auto].
Qed.

(** ** C42 *)
Section Explicit.
  Context {T : Type} (F : fmt T) (N : Num T) (RN : rounded F N).
  Lemma explicit_proof m t d : in_range t -> representable F t -> @build T N m t = Ok d ->
    let '(a, b, c) := roundings t in
    let s := INR a * fu F + INR b * ftau F + INR c * frho F in
    s <= / 2 ->
    exists f, transforms d f /\
      forall x k, length x = dht_len d -> (k < dht_len d)%nat -> Forall (ffin F) x -> 2 * (gain t * size F x) <= fhi F ->
        ffin F (nth k (f x) (@nzero T N)) /\
        Rabs (fval F (nth k (f x) (@nzero T N)) - dht_at (map (fval F) x) k) <= 2 * s * (gain t * size F x).
  Proof.
    intros I Rp E. pose proof (C41_proof F N RN m t d I Rp E) as (P & Q & f & O & K).
    pose proof (C41_linear_proof (fu F) (ftau F) (frho F) t (r_u _ _ RN) (r_tau _ _ RN) (r_rho _ _ RN)) as Ln.
    destruct (roundings t) as [[a b] c]. cbv zeta in *. intros Hs. specialize (Ln Hs). exists f. split; auto.
    intros x k Lx Hk Fx Hc. set (s := INR a * fu F + INR b * ftau F + INR c * frho F) in *.
    assert (S0 : 0 <= gain t * size F x).
    { apply Rmult_le_pos; [pose proof sqrt2_bounds; lra|]. unfold size. apply rsum_nonneg. intros. eapply Rle_trans; [apply Rabs_pos|apply Rmax_l]. }
    destruct (K x k Lx Hk Fx) as [K1 K2].
    - eapply Rle_trans; [|exact Hc]. apply Rmult_le_compat_r; auto. lra.
    - split; auto. apply (Rle_trans _ _ _ K2). apply Rmult_le_compat_r; auto.
  Qed.
End Explicit.
Lemma C42_f32_proof L m t d : accurate L -> in_range t -> representable F32 t -> @build f32 (Num_f32 L) m t = Ok d ->
  let '(a, b, c) := roundings t in
  let s := INR a * bpow radix2 (-24) + INR b * (bpow radix2 (-24) + bpow radix2 (-45)) + INR c * bpow radix2 (-24) in
  s <= / 2 ->
  exists f, transforms d f /\
    forall x k, length x = dht_len d -> (k < dht_len d)%nat -> Forall (fun v => is_finite v = true) x ->
      2 * (gain t * size F32 x) <= bpow radix2 127 ->
      is_finite (nth k (f x) (B754_zero false)) = true /\
      Rabs (B2R (nth k (f x) (B754_zero false)) - dht_at (map B2R x) k) <= 2 * s * (gain t * size F32 x).
Proof. intros A I Rp E. exact (explicit_proof F32 (Num_f32 L) (ok32 L A) m t d I Rp E). Qed.
Lemma C42_f64_proof L m t d : accurate L -> in_range t -> representable F64 t -> @build f64 (Num_f64 L) m t = Ok d ->
  let '(a, b, c) := roundings t in
  let s := INR a * bpow radix2 (-53) + INR b * bpow radix2 (-46) + INR c * bpow radix2 (-24) in
  s <= / 2 ->
  exists f, transforms d f /\
    forall x k, length x = dht_len d -> (k < dht_len d)%nat -> Forall (fun v => is_finite v = true) x ->
      2 * (gain t * size F64 x) <= bpow radix2 1023 ->
      is_finite (nth k (f x) (B754_zero false)) = true /\
      Rabs (B2R (nth k (f x) (B754_zero false)) - dht_at (map B2R x) k) <= 2 * s * (gain t * size F64 x).
Proof. intros A I Rp E. exact (explicit_proof F64 (Num_f64 L) (ok64 L A) m t d I Rp E). Qed.

(** ** concrete cases *)
Definition case_tree := Mixed (Split Fly4 Fly8) (Rader (Two (Naive 6))).
Lemma case_repr {T} (F : fmt T) : 0 <= fu F <= 1 -> 0 <= ftau F <= 1 -> 16777216 <= fhi F -> representable F case_tree.
Proof.
  intros U V H. cbn [case_tree representable tree_len]. unfold usz.
  repeat split; try (vm_compute; reflexivity).
  unfold tree_phi. cbn [roundings gain Nat.add].
  assert (P : forall v n, 0 <= v <= 1 -> 0 <= (1 + v) ^ n <= 2 ^ n).
  { intros v n Hv. split; [apply pow_le; lra|]. apply pow_incr. lra. }
  pose proof (P (fu F) 4%nat U) as P1. pose proof (P (ftau F) 2%nat V) as P2. pose proof (P (fu F) 11%nat U) as P3.
  rewrite pow_O, Rmult_1_r.
  replace (2 * 2) with 4 by lra. replace ((1 + fu F) ^ 4 * (1 + ftau F) ^ 2 * ((1 + fu F) ^ 11 * (1 + ftau F) ^ 2) * (4 * 4))
    with ((1 + fu F) ^ 4 * ((1 + ftau F) ^ 2 * ((1 + fu F) ^ 11 * ((1 + ftau F) ^ 2 * 16)))) by ring.
  apply (Rle_trans _ (2 ^ 4 * (2 ^ 2 * (2 ^ 11 * (2 ^ 2 * 16))))); [|simpl; lra].
  destruct P1, P2, P3.
  assert (B1 : (1 + ftau F) ^ 2 * 16 <= 2 ^ 2 * 16) by lra. assert (A1 : 0 <= (1 + ftau F) ^ 2 * 16) by lra.
  repeat (apply Rmult_le_compat; auto; try lra; try (repeat apply Rmult_le_pos; auto; lra)).
Qed.
Lemma case_build {T} (F : fmt T) (N : Num T) m : rounded F N -> fu F <= 1 -> ftau F <= 1 -> 16777216 <= fhi F ->
  in_range case_tree /\ representable F case_tree /\ exists d, @build T N m case_tree = Ok d.
Proof.
  intros RN U V H. pose proof (r_u _ _ RN). pose proof (r_tau _ _ RN).
  assert (Rp : representable F case_tree) by (apply case_repr; lra).
  split; [simpl; repeat split; discriminate|]. split; auto.
  assert (I : in_range (Two (Naive 6))) by exact Logic.I. destruct Rp as (_ & _ & _ & Rp & Hb).
  pose proof (C41_proof F N RN m (Two (Naive 6)) _ I Rp eq_refl) as A.
  destruct (C40_rader_proof F N RN m _ _ _ A) as (D & ED & _).
  - split; [reflexivity|]. intros q Q1. 
    change (N.of_nat (dht_len (@mixed_radix_2xn T N (dht_naive 6)) + 1)) with 13%N in *.
    pose proof (N.divide_pos_le q 13 eq_refl Q1) as Q3.
    assert (K : forallb (fun i => let e := N.of_nat i in negb (13 mod e =? 0) || (e =? 1) || (e =? 13))%N%bool (seq 1 13) = true) by (vm_compute; reflexivity).
    rewrite forallb_forall in K. specialize (K (N.to_nat q)). rewrite N2Nat.id in K. cbv zeta in K.
    assert (Z : q <> 0%N) by (intros ->; destruct Q1 as [z Q1]; lia).
    rewrite (proj2 (N.mod_divide 13 q Z) Q1) in K. 
    assert (Y : In (N.to_nat q) (seq 1 13)) by (apply in_seq; lia). specialize (K Y). cbn [negb orb N.eqb] in K.
    apply Bool.orb_true_iff in K. destruct K as [K|K]; apply N.eqb_eq in K; auto.
  - simpl. lia.
  - simpl. discriminate.
  - exact Hb.
  - exists (mixed_radix (match split_radix (@butterfly4 T N) (@butterfly8 T N) with Ok d => d | _ => D end) D).
    unfold case_tree. cbn [build]. change (@build T N m (Two (Naive 6))) with (Ok (@mixed_radix_2xn T N (dht_naive 6))) in *.
    cbn [bind]. cbn [bind] in ED. rewrite ED. reflexivity.
Qed.

(** ** C45: one f64 witness *)
Section Witness.
  Context {T : Type} (F : fmt T) (N : Num T) (RN : rounded F N).
  Local Existing Instance N.
  Variable e : R.
  Hypothesis He : 0 <= e <= / 8.
  Hypothesis Hu : fu F <= e.
  Hypothesis Ht : ftau F <= e.
  Hypothesis Hl : flo F <= e.
  Hypothesis Hh : 8 <= fhi F.
  Let near (v : T) (x d : R) := ffin F v /\ x - d <= fval F v <= x + d.
  Let n_add a b x y d d' : near a x d -> near b y d' -> -3 <= x + y <= 3 -> d + d' <= 1 ->
    near (nadd a b) (x + y) (d + d' + 4 * e).
  Proof.
    intros [F1 E1] [F2 E2] B D. destruct (r_add _ _ RN a b F1 F2) as [F3 E3]; [apply Rabs_le; lra|].
    split; auto. set (s := fval F a + fval F b) in *. assert (Rabs s <= 4) by (apply Rabs_le; unfold s; lra).
    assert (Rabs (fval F (nadd a b) - s) <= 4 * e) as K by (pose proof (r_u _ _ RN); pose proof (Rabs_pos s); nra).
    apply Rabs_le_inv in K. unfold s in K. lra.
  Qed.
  Let n_sub a b x y d d' : near a x d -> near b y d' -> -3 <= x - y <= 3 -> d + d' <= 1 ->
    near (nsub a b) (x - y) (d + d' + 4 * e).
  Proof.
    intros [F1 E1] [F2 E2] B D. destruct (r_sub _ _ RN a b F1 F2) as [F3 E3]; [apply Rabs_le; lra|].
    split; auto. set (s := fval F a - fval F b) in *. assert (Rabs s <= 4) by (apply Rabs_le; unfold s; lra).
    assert (Rabs (fval F (nsub a b) - s) <= 4 * e) as K by (pose proof (r_u _ _ RN); pose proof (Rabs_pos s); nra).
    apply Rabs_le_inv in K. unfold s in K. lra.
  Qed.
  Let n_mul a b x y d d' : near a x d -> near b y d' -> Rabs x <= 1 -> Rabs y <= 2 -> 0 <= d <= / 8 -> 0 <= d' <= / 8 ->
    near (nmul a b) (x * y) (3 * d + 2 * d' + 4 * e).
  Proof.
    intros [F1 E1] [F2 E2] X Y D D'. apply Rabs_le_inv in X, Y.
    assert (K1 : Rabs (fval F a - x) <= d) by (apply Rabs_le; lra). assert (K2 : Rabs (fval F b - y) <= d') by (apply Rabs_le; lra).
    assert (K3 : Rabs (fval F a * fval F b - x * y) <= 3 * d + 2 * d').
    { replace (fval F a * fval F b - x * y) with ((fval F a - x) * fval F b + x * (fval F b - y)) by ring.
      eapply Rle_trans; [apply Rabs_triang|]. rewrite !Rabs_mult.
      assert (Rabs (fval F b) <= 3) by (apply Rabs_le; lra). assert (Rabs x <= 1) by (apply Rabs_le; lra).
      pose proof (Rabs_pos (fval F a - x)). pose proof (Rabs_pos (fval F b - y)). pose proof (Rabs_pos x). pose proof (Rabs_pos (fval F b)). nra. }
    apply Rabs_le_inv in K3. assert (XY : -2 <= x * y <= 2) by nra.
    assert (P : Rabs (fval F a * fval F b) <= 4) by (apply Rabs_le; lra).
    destruct (r_mul _ _ RN a b F1 F2) as [F3 E3]; [lra|]. split; auto.
    assert (M : Rmax (Rabs (fval F a * fval F b)) (flo F) <= 4) by (apply Rmax_lub; lra).
    assert (K : Rabs (fval F (nmul a b) - fval F a * fval F b) <= 4 * e).
    { pose proof (r_u _ _ RN). pose proof (Rabs_pos (fval F a * fval F b)). pose proof (Rmax_l (Rabs (fval F a * fval F b)) (flo F)). nra. }
    apply Rabs_le_inv in K. lra.
  Qed.
  Variable one : T.
  Hypothesis H1 : ffin F one /\ fval F one = 1.
  Variable w : R.
  Hypothesis Hw : ffin F nroot_half /\ fval F nroot_half = w /\ 0 <= w <= 1.
  (** the outputs for the impulse at index 1 *)
  Lemma witness_2x2 : e <= / 1000 ->
    exists y, dht_process (mixed_radix butterfly2 butterfly2) [nzero; one; nzero; nzero] = Ok y /\
      Rabs (fval F (nth 1 y nzero) - w * sqrt 2) <= 200 * e.
  Proof.
    intros Es. pose (d := nzero (T := T)). eexists. split.
    { cbv -[nadd nsub nmul nopp ncos nsin nhalf nroot_half nzero]. reflexivity. }
    cbn [nth].
    assert (Z : near nzero 0 0) by (destruct (r_zero _ _ RN) as [A B]; split; auto; rewrite B; lra).
    assert (O : near one 1 0) by (destruct H1 as [A B]; split; auto; rewrite B; lra).
    assert (W : near nroot_half w 0) by (destruct Hw as (A & B & _); split; auto; rewrite B; lra).
    assert (Cc : near (ncos false 12 32) (- (/ sqrt 2)) e).
    { destruct (r_cos _ _ RN false 12 32) as [A B]; [lia|lia|reflexivity|]. split; auto.
      assert (C : cos (1 * 2 * PI / INR 32 * INR 12) = - (/ sqrt 2)).
      { replace (1 * 2 * PI / INR 32 * INR 12) with (3 * (PI / 4)) by (simpl; lra). rewrite cos_3PI4. unfold Rdiv. pose proof sqrt2_neq_0. field; auto. }
      rewrite C in B. apply Rabs_le_inv in B. lra. }
    assert (Sc : near (nsin false 12 32) (/ sqrt 2) e).
    { destruct (r_sin _ _ RN false 12 32) as [A B]; [lia|lia|reflexivity|]. split; auto.
      assert (C : sin (1 * 2 * PI / INR 32 * INR 12) = / sqrt 2).
      { replace (1 * 2 * PI / INR 32 * INR 12) with (3 * (PI / 4)) by (simpl; lra). rewrite sin_3PI4. unfold Rdiv. pose proof sqrt2_neq_0. field; auto. }
      rewrite C in B. apply Rabs_le_inv in B. lra. }
    assert (S2 : 0 <= / sqrt 2 <= 1).
    { pose proof sqrt2_bounds. split; [left; apply Rinv_0_lt_compat; lra|]. rewrite <- Rinv_1. apply Rinv_le_contravar; lra. }
    destruct Hw as (_ & _ & Hw').
    pose proof (n_mul _ _ _ _ _ _ Cc W ltac:(apply Rabs_le; lra) ltac:(apply Rabs_le; lra) ltac:(lra) ltac:(lra)) as P1.
    pose proof (n_mul _ _ _ _ _ _ Sc W ltac:(apply Rabs_le; lra) ltac:(apply Rabs_le; lra) ltac:(lra) ltac:(lra)) as P2.
    pose proof (n_sub _ _ _ _ _ _ O Z ltac:(lra) ltac:(lra)) as Q1.
    pose proof (n_add _ _ _ _ _ _ Q1 Q1 ltac:(lra) ltac:(lra)) as Q2. pose proof (n_sub _ _ _ _ _ _ Q1 Q1 ltac:(lra) ltac:(lra)) as Q3.
    assert (X : -1 <= / sqrt 2 * w <= 1) by nra.
    pose proof (n_mul _ _ _ _ _ _ P1 Q2 ltac:(apply Rabs_le; lra) ltac:(apply Rabs_le; lra) ltac:(lra) ltac:(lra)) as U1.
    pose proof (n_mul _ _ _ _ _ _ P2 Q3 ltac:(apply Rabs_le; lra) ltac:(apply Rabs_le; lra) ltac:(lra) ltac:(lra)) as U2.
    pose proof (n_sub _ _ _ _ _ _ U1 U2 ltac:(lra) ltac:(lra)) as V1. pose proof (n_sub _ _ _ _ _ _ Z Z ltac:(lra) ltac:(lra)) as V2.
    pose proof (n_sub _ _ _ _ _ _ V2 V1 ltac:(lra) ltac:(lra)) as [_ R].
    apply Rabs_le. set (v := fval F _) in *.
    assert (E : w * sqrt 2 = 2 * (/ sqrt 2 * w)).
    { pose proof sqrt2_neq_0. assert (sqrt 2 * sqrt 2 = 2) by (apply sqrt_sqrt; lra). 
      apply (Rmult_eq_reg_r (sqrt 2)); auto. field_simplify; auto. nra. }
    rewrite E. lra.
  Qed.
End Witness.
Lemma C45_proof L : accurate L ->
  let d := @mixed_radix f64 (Num_f64 L) (@butterfly2 f64 (Num_f64 L)) (@butterfly2 f64 (Num_f64 L)) in
  exists x y, length x = dht_len d /\ Forall (fun v => is_finite v = true) x /\ @dht_process f64 (Num_f64 L) d x = Ok y /\
    bpow radix2 (-26) * size F64 x < Rabs (B2R (nth 1 y (B754_zero false)) - dht_at (map B2R x) 1).
Proof.
  intros A. cbv zeta. set (e := bpow radix2 (-46)).
  assert (Ee : e = / 70368744177664) by reflexivity.
  assert (M1 : bpow radix2 (-53) <= e) by (apply bpow_le; lia). assert (M2 : bpow radix2 (-1022) <= e) by (apply bpow_le; lia).
  assert (M3 : 8 <= bpow radix2 1023) by (change 8 with (bpow radix2 3); apply bpow_le; lia).
  destruct root_half64_val as [Fr Er].
  assert (One : is_finite f64_one = true /\ B2R f64_one = 1).
  { split; [reflexivity|]. assert (E : B2SF f64_one = SpecFloat.S754_finite false 4503599627370496 (-52)) by (vm_compute; reflexivity).
    destruct f64_one as [| | |s m x p]; try discriminate E. injection E as -> -> ->. unfold B2R, F2R. simpl. lra. }
  destruct (witness_2x2 F64 (Num_f64 L) (ok64 L A) e ltac:(rewrite Ee; lra) M1 ltac:(cbn; unfold e; lra) M2 M3 f64_one One
    (IZR 11863283 * / 16777216) ltac:(split; [exact Fr|split; [exact Er|lra]]) ltac:(rewrite Ee; lra)) as (y & Ey & Dy).
  pose (x := [B754_zero false; f64_one; B754_zero false; B754_zero false] : list f64). exists x, y.
  split; [reflexivity|]. split; [repeat constructor|]. split; [exact Ey|].
  cbn [F64 fval] in Dy. change (@nzero f64 (Num_f64 L)) with (B754_zero false : f64) in Dy.
  assert (X : dht_at (map B2R x) 1 = 1).
  { unfold x. cbn [map]. destruct One as [_ ->]. unfold dht_at, ang. cbn [length rsum nth B2R Nat.mul].
    unfold cas. replace (2 * PI * INR (1 + 0) / INR 4) with (PI / 2) by (simpl; lra). rewrite cos_PI2, sin_PI2. lra. }
  assert (S : size F64 x <= 1 + 3 * e).
  { unfold x, size. cbn [map F64 fval flo]. destruct One as [_ ->]. cbn [length rsum nth B2R]. rewrite Rabs_R0, Rabs_R1.
    rewrite (Rmax_left 1) by (rewrite Ee in M2; lra). rewrite Rmax_right by apply bpow_ge_0. lra. }
  rewrite X. set (v := B2R _) in *. apply Rabs_le_inv in Dy.
  assert (G := lib_rho_gap). rewrite lib_root_half_val in G. set (rt := IZR 11863283 * / 16777216 * sqrt 2) in *.
  assert (G1 : rt <= 1 - 17 / 1000000000).
  { unfold rt. pose proof sqrt2_bounds. assert (sqrt 2 <= 14142135624 / 10000000000); [|lra].
    rewrite <- (sqrt_Rsqr (14142135624 / 10000000000)) by lra. apply sqrt_le_1_alt. unfold Rsqr. lra. }
  rewrite Rabs_left by (rewrite Ee in Dy; lra).
  replace (bpow radix2 (-26)) with (/ 67108864) by reflexivity. rewrite Ee in *. lra.
Qed.
Lemma C42_case_proof L m : accurate L ->
  in_range case_tree /\ representable F32 case_tree /\ (exists d, @build f32 (Num_f32 L) m case_tree = Ok d) /\
  let '(a, b, c) := roundings case_tree in
  INR a * bpow radix2 (-24) + INR b * (bpow radix2 (-24) + bpow radix2 (-45)) + INR c * bpow radix2 (-24) <= / 2.
Proof.
  intros A. assert (P24 : bpow radix2 (-24) = / 16777216) by reflexivity. assert (P45 : bpow radix2 (-45) = / 35184372088832) by reflexivity.
  destruct (case_build F32 (Num_f32 L) m (ok32 L A)) as (I & Rp & E).
  - cbn [F32 fu]. rewrite P24. lra.
  - cbn [F32 ftau]. rewrite P24, P45. lra.
  - cbn [F32 fhi]. change 16777216 with (bpow radix2 24). apply bpow_le. lia.
  - split; [exact I|]. split; [exact Rp|]. split; [exact E|]. rewrite P24, P45. simpl. lra.
Qed.
Lemma C42_case64_proof L m : accurate L ->
  in_range case_tree /\ representable F64 case_tree /\ (exists d, @build f64 (Num_f64 L) m case_tree = Ok d) /\
  let '(a, b, c) := roundings case_tree in
  INR a * bpow radix2 (-53) + INR b * bpow radix2 (-46) + INR c * bpow radix2 (-24) <= / 2.
Proof.
  intros A. assert (P24 : bpow radix2 (-24) = / 16777216) by reflexivity. assert (P46 : bpow radix2 (-46) = / 70368744177664) by reflexivity.
  assert (P53 : bpow radix2 (-53) = / 9007199254740992) by reflexivity.
  destruct (case_build F64 (Num_f64 L) m (ok64 L A)) as (I & Rp & E).
  - cbn [F64 fu]. rewrite P53. lra.
  - cbn [F64 ftau]. rewrite P46. lra.
  - cbn [F64 fhi]. change 16777216 with (bpow radix2 24). apply bpow_le. lia.
  - split; [exact I|]. split; [exact Rp|]. split; [exact E|]. rewrite P24, P46, P53. simpl. lra.
Qed.
Lemma C42_fly16_proof L : accurate L -> exists f, transforms (@butterfly16 f32 (Num_f32 L)) f /\
  forall x k, length x = 16%nat -> (k < 16)%nat -> Forall (fun v => is_finite v = true) x -> size F32 x <= bpow radix2 125 ->
    is_finite (nth k (f x) (B754_zero false)) = true /\
    Rabs (B2R (nth k (f x) (B754_zero false)) - dht_at (map B2R x) k) <= bpow radix2 (-19) * size F32 x.
Proof.
  intros A. assert (P24 : bpow radix2 (-24) = / 16777216) by reflexivity. assert (P45 : bpow radix2 (-45) = / 35184372088832) by reflexivity.
  pose proof (C42_f32_proof L Debug Fly16 (@butterfly16 f32 (Num_f32 L)) A I ltac:(split; [reflexivity|exact I]) eq_refl) as C.
  cbn [roundings gain] in C. cbv zeta in C. destruct C as (f & O & K); [rewrite P24, P45; simpl; lra|].
  exists f. split; auto. intros x k Lx Hk Fx Hs.
  assert (E : bpow radix2 127 = 4 * bpow radix2 125) by (change 4 with (bpow radix2 2); rewrite <- bpow_plus; reflexivity).
  assert (S0 : 0 <= size F32 x) by (unfold size; apply rsum_nonneg; intros; eapply Rle_trans; [apply Rabs_pos|apply Rmax_l]).
  destruct (K x k Lx Hk Fx) as [K1 K2]; [rewrite E; lra|]. split; auto. apply (Rle_trans _ _ _ K2).
  replace (bpow radix2 (-19)) with (/ 524288) by reflexivity. rewrite P24, P45. simpl INR. nra.
Qed.
Lemma C39_case_proof : exists L, rounded F32 (Num_f32 L) /\ rounded F64 (Num_f64 L).
Proof. exists (Libm (ideal cos) (ideal sin)). split; [apply ok32|apply ok64]; apply accurate_exists. Qed.
Lemma C44_case_proof : integral F64 (bpow radix2 53) [f64_two; f64_one; Bopp f64_two; f64_of_usize 1000].
Proof.
  assert (V : forall (v : f64) z m x s, B2SF v = SpecFloat.S754_finite s m x -> IZR (cond_Zopp s (Zpos m)) * bpow radix2 x = IZR z -> is_finite v = true /\ B2R v = IZR z).
  { intros v z m x s E H. destruct v as [| | |s' m' x' p]; try discriminate E. injection E as -> -> ->. split; auto. }
  destruct (V f64_two 2%Z 4503599627370496%positive (-51)%Z false) as [F1 E1]; [vm_compute; reflexivity|simpl; lra|].
  destruct (V f64_one 1%Z 4503599627370496%positive (-52)%Z false) as [F2 E2]; [vm_compute; reflexivity|simpl; lra|].
  destruct (V (Bopp f64_two) (-2)%Z 4503599627370496%positive (-51)%Z true) as [F3 E3]; [vm_compute; reflexivity|simpl; lra|].
  destruct (V (f64_of_usize 1000) 1000%Z 8796093022208000%positive (-43)%Z false) as [F4 E4]; [vm_compute; reflexivity|replace (bpow radix2 (-43)) with (/ 8796093022208) by reflexivity; simpl; lra|].
  split.
  - repeat constructor; eauto.
  - cbn [map F64 fval]. rewrite E1, E2, E3, E4. unfold norm1. cbn [length rsum nth].
    rewrite (Rabs_pos_eq 2), (Rabs_pos_eq 1), (Rabs_pos_eq 1000), (Rabs_left (-2)) by lra. replace (bpow radix2 53) with 9007199254740992 by reflexivity. lra.
Qed.
