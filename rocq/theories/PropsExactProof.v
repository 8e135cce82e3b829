(** * Proofs behind PropsExact.v *)
From Verif Require Import Lemmas NumTheory Residues MathProofs RootProofs RadersContract NxnInst RealDHT DHTTheory MixedReal Radix4Real.
From Verif Require Export ApiReal.
From Coq Require Import Lia NArith Reals Lra.

Lemma C01_proof (c : R) n : transforms (@dht_naive R (RNum c) n) dht_spec.
Proof. apply transforms_ok, naive_exact. Qed.
Lemma C01_process_proof (c : R) (d : Dht R) f xs : transforms d f -> 0 < dht_len d -> chunks_of (dht_len d) xs ->
  @dht_process R (RNum c) d (concat xs) = Ok (concat (map f xs)).
Proof. apply process_transforms. Qed.

Lemma dht_spec_two a b : dht_spec [a; b] = [a + b; a - b]%R.
Proof.
  unfold dht_spec, dht_at. simpl. rewrite !ang_0. unfold ang. replace (2 * PI * INR 1 / INR 2)%R with PI by (simpl; field).
  unfold cas. rewrite cos_0, sin_0, cos_PI, sin_PI. f_equal; [lra|]. f_equal. lra.
Qed.
Lemma C01_case_proof : @dht_process R (RNum rh) (@dht_naive R (RNum rh) 2) [3; 5; 7; 1]%R = Ok [8; -2; 8; 6]%R.
Proof.
  change [3; 5; 7; 1]%R with (concat [[3; 5]; [7; 1]])%R.
  rewrite (process_transforms _ dht_spec); [|apply C01_proof|cbn; lia|].
  - cbn [map concat app]. rewrite !dht_spec_two. cbn [app]. f_equal.
    replace (3 + 5)%R with 8%R by lra. replace (3 - 5)%R with (-2)%R by lra.
    replace (7 + 1)%R with 8%R by lra. replace (7 - 1)%R with 6%R by lra. reflexivity.
  - split; [discriminate|]. repeat constructor.
Qed.

Lemma C02_proof (c : R) : let N := RNum c in
  transforms (@butterfly1 R) dht_spec /\ transforms (@butterfly2 R N) dht_spec /\
  transforms (@butterfly3 R N) dht_spec /\ transforms (@butterfly4 R N) dht_spec /\
  transforms (@butterfly5 R N) dht_spec /\ transforms (@butterfly6 R N) dht_spec /\
  transforms (@butterfly8 R N) dht_spec /\ transforms (@butterfly9 R N) dht_spec /\
  transforms (@butterfly16 R N) dht_spec.
Proof.
  cbv zeta. refine (conj _ (conj _ (conj _ (conj _ (conj _ (conj _ (conj _ (conj _ _)))))))); apply transforms_ok.
  all: auto using bf1_exact, bf2_exact, bf3_exact, bf4_exact, bf5_exact, bf6_exact, bf8_exact, bf9_exact, bf16_exact.
Qed.

Lemma C03_proof (dw dh : Dht R) : transforms dw dht_spec -> transforms dh dht_spec ->
  dht_len (@mixed_radix R (RNum rh) dw dh) = dht_len dw * dht_len dh /\
  transforms (@mixed_radix R (RNum rh) dw dh) dht_spec.
Proof.
  rewrite <- !transforms_ok. intros Hw Hh. split; [reflexivity|]. apply mixed_exact; auto. apply rh_rho.
Qed.
Lemma C03_case_proof : transforms (@mixed_radix R (RNum rh) (@dht_naive R (RNum rh) 7) (@butterfly4 R (RNum rh))) dht_spec.
Proof. apply C03_proof; [apply C01_proof|apply C02_proof]. Qed.

Lemma C04_proof (c : R) d : transforms d dht_spec -> dht_inplace_scratch d <= 2 * dht_len d -> dht_oop_scratch d = 0 ->
  dht_len (@mixed_radix_2xn R (RNum c) d) = 2 * dht_len d /\ transforms (@mixed_radix_2xn R (RNum c) d) dht_spec.
Proof. rewrite <- !transforms_ok. intros. split; [reflexivity|]. apply radix2_exact; auto. split; auto. Qed.
Lemma C05_proof d : transforms d dht_spec -> dht_inplace_scratch d <= 3 * dht_len d -> dht_oop_scratch d = 0 ->
  dht_len (@mixed_radix_3xn R (RNum rh) d) = 3 * dht_len d /\ transforms (@mixed_radix_3xn R (RNum rh) d) dht_spec.
Proof. rewrite <- !transforms_ok. intros. split; [reflexivity|]. apply radix3_exact; auto using rh_rho. split; auto. Qed.
Lemma C06_proof (c : R) d : transforms d dht_spec -> dht_inplace_scratch d <= 4 * dht_len d -> dht_oop_scratch d = 0 ->
  dht_len (@mixed_radix_4xn R (RNum c) d) = 4 * dht_len d /\ transforms (@mixed_radix_4xn R (RNum c) d) dht_spec.
Proof. rewrite <- !transforms_ok. intros. split; [reflexivity|]. apply radix4_exact; auto. split; auto. Qed.
Lemma C07_proof d : transforms d dht_spec -> dht_inplace_scratch d <= 5 * dht_len d -> dht_oop_scratch d = 0 ->
  dht_len (@mixed_radix_5xn R (RNum rh) d) = 5 * dht_len d /\ transforms (@mixed_radix_5xn R (RNum rh) d) dht_spec.
Proof. rewrite <- !transforms_ok. intros. split; [reflexivity|]. apply radix5_exact; auto using rh_rho. split; auto. Qed.
Lemma C08_proof d : transforms d dht_spec -> dht_inplace_scratch d <= 6 * dht_len d -> dht_oop_scratch d = 0 ->
  dht_len (@mixed_radix_6xn R (RNum rh) d) = 6 * dht_len d /\ transforms (@mixed_radix_6xn R (RNum rh) d) dht_spec.
Proof. rewrite <- !transforms_ok. intros. split; [reflexivity|]. apply radix6_exact; auto using rh_rho. split; auto. Qed.
Lemma C04_case_proof : let d := @dht_naive R (RNum rh) 7 in
  transforms d dht_spec /\ dht_inplace_scratch d <= 2 * dht_len d /\ dht_oop_scratch d = 0 /\ dht_inplace_scratch d = 7.
Proof. cbv zeta. split; [apply C01_proof|]. cbn. lia. Qed.

Lemma C09_proof (c : R) dq dh : transforms dq dht_spec -> transforms dh dht_spec ->
  dht_len dh = dht_len dq * 2 ->
  dht_inplace_scratch dh <= dht_len dh -> dht_inplace_scratch dq <= dht_len dq * 4 -> dht_oop_scratch dq = 0 ->
  exists d, @split_radix R (RNum c) dq dh = Ok d /\ dht_len d = 4 * dht_len dq /\ transforms d dht_spec.
Proof.
  rewrite <- !transforms_ok. intros I1 I2 L F1 F2 F3. destruct (split_exact c dq dh I1 I2 L F1 F2 F3) as (d & E & O).
  exists d. rewrite <- transforms_ok. destruct (split_radix_len _ _ _ E) as (_ & L2 & _). split; [auto|]. split; [lia|auto].
Qed.
Lemma C09_case_proof : let dq := @dht_naive R (RNum rh) 5 in let dh := @mixed_radix_2xn R (RNum rh) dq in
  transforms dq dht_spec /\ transforms dh dht_spec /\ dht_len dh = dht_len dq * 2 /\
  dht_inplace_scratch dh <= dht_len dh /\ dht_inplace_scratch dq <= dht_len dq * 4 /\ dht_oop_scratch dq = 0.
Proof.
  cbv zeta. split; [apply C01_proof|]. split; [apply C04_proof; [apply C01_proof|cbn; lia|reflexivity]|]. cbn. lia.
Qed.

Lemma C10_partial_proof (c : R) k : k <= 6 ->
  exists d, @radix4 R (RNum c) (2 ^ k) = Ok d /\ dht_len d = 2 ^ k /\ transforms d dht_spec.
Proof.
  intros Hk. destruct (radix4_upto64_exact c k Hk) as (d & E & O). exists d. rewrite <- transforms_ok.
  destruct (radix4_sizes _ _ E) as (L & _). auto.
Qed.

Lemma nprime_of p : (1 < N.of_nat p)%N -> (forall q, Nat.divide q p -> q = 1 \/ q = p) -> nprime (N.of_nat p).
Proof.
  intros H1 H. split; auto. intros q [z Hz]. 
  destruct (H (N.to_nat q)) as [E|E].
  - exists (N.to_nat z). rewrite <- N2Nat.inj_mul, <- Hz. now rewrite Nat2N.id.
  - left. lia.
  - right. lia.
Qed.
Lemma C11_proof (c : R) m d : transforms d dht_spec ->
  (1 < N.of_nat (dht_len d + 1))%N -> (forall q, Nat.divide q (dht_len d + 1) -> q = 1 \/ q = dht_len d + 1) ->
  dht_len d <> 1 -> (N.of_nat (dht_len d + 1) <= 2 ^ 32)%N ->
  exists D, @raders R (RNum c) m d = Ok D /\ dht_len D = dht_len d + 1 /\ transforms D dht_spec.
Proof.
  rewrite <- transforms_ok. intros I P1 P2 H2 Hs. 
  destruct (raders_exact c m d I (nprime_of _ P1 P2) ltac:(lia) Hs) as (D & E & O). exists D. rewrite <- transforms_ok.
  destruct (raders_len _ _ _ E) as (L & _). auto.
Qed.
Lemma small_prime p : (forallb (fun q => negb (p mod q =? 0)) (seq 2 (p - 2)) = true) -> 1 < p ->
  forall q, Nat.divide q p -> q = 1 \/ q = p.
Proof.
  intros F Hp q Dq. assert (q <= p) by (apply Nat.divide_pos_le; auto; lia).
  assert (q <> 0) by (intros ->; destruct Dq as [z ?]; lia).
  destruct (Nat.eq_dec q 1); auto. destruct (Nat.eq_dec q p); auto. exfalso.
  rewrite forallb_forall in F. assert (I : In q (seq 2 (p - 2))) by (apply in_seq; lia).
  apply F in I. apply Nat.mod_divide in Dq; [|lia]. rewrite Dq in I. discriminate.
Qed.
Lemma C11_case_proof : let d := @mixed_radix R (RNum rh) (@butterfly3 R (RNum rh)) (@butterfly4 R (RNum rh)) in
  transforms d dht_spec /\ (1 < N.of_nat (dht_len d + 1))%N /\
  (forall q, Nat.divide q (dht_len d + 1) -> q = 1 \/ q = dht_len d + 1) /\
  dht_len d <> 1 /\ (N.of_nat (dht_len d + 1) <= 2 ^ 32)%N.
Proof.
  cbv zeta. split; [apply C03_proof; apply C02_proof|].
  change (dht_len (mixed_radix butterfly3 butterfly4)) with 12. split; [reflexivity|]. split; [|split; [lia|now vm_compute]].
  apply small_prime; [reflexivity|lia].
Qed.

Lemma C12_proof m (A : allowed R) :
  (forall d, al_user A d -> transforms d dht_spec /\ modest d) ->
  (forall n, al_radix4 A n -> n <= 64) ->
  (forall p, al_rader A p -> (N.of_nat p <= 2 ^ 32)%N) ->
  forall d, @assembled R (RNum rh) m A d -> transforms d dht_spec.
Proof.
  intros H1 H2 H3 d Hd. apply transforms_ok. apply (assembled_exact rh rh_rho m A); auto.
  intros d' U. destruct (H1 d' U) as [E M]. split; [now apply transforms_ok|intros _; auto].
Qed.

Definition case_allowed : allowed R :=
  {| al_user := fun _ => False; al_radix4 := fun n => n <= 64; al_rader := fun p => (N.of_nat p <= 2 ^ 32)%N |}.
Lemma C12_case_proof : exists d, @assembled R (RNum rh) Debug case_allowed d /\ dht_len d = 104 * 120.
Proof.
  pose proof C11_case_proof as (T12 & P1 & P2 & P3 & P4).
  destruct (C11_proof rh Debug _ T12 P1 P2 P3 P4) as (d13 & E13 & L13 & T13).
  assert (A13 : @assembled R (RNum rh) Debug case_allowed d13).
  { eapply as_rader; [|exact E13|]. { apply as_mixed; [apply as_bf3|apply as_bf4]. } rewrite L13. exact P4. }
  change (dht_len (mixed_radix butterfly3 butterfly4)) with 12 in L13. simpl in L13.
  assert (M13 : modest d13) by (apply (assembled_modest (NT := RNum rh) Debug case_allowed ltac:(intros ? []) d13); [auto|lia]).
  destruct M13 as [M1 M2].
  destruct (C05_proof d13 T13) as [L39 T39]; [lia|auto|]. destruct (C08_proof d13 T13) as [L78 T78]; [lia|auto|].
  rewrite L13 in L39, L78.
  set (d39 := mixed_radix_3xn d13) in *. set (d78 := mixed_radix_6xn d13) in *.
  assert (A39 : @assembled R (RNum rh) Debug case_allowed d39) by now apply as_3xn.
  assert (A78 : @assembled R (RNum rh) Debug case_allowed d78) by now apply as_6xn.
  assert (M39 : modest d39) by (apply (assembled_modest (NT := RNum rh) Debug case_allowed ltac:(intros ? []) d39); [auto|lia]).
  assert (M78 : modest d78) by (apply (assembled_modest (NT := RNum rh) Debug case_allowed ltac:(intros ? []) d78); [auto|lia]).
  destruct M39 as [Q1 Q2], M78 as [H1 H2].
  destruct (C09_proof rh d39 d78 T39 T78) as (d156 & E156 & L156 & _); [lia|lia|lia|auto|].
  assert (A156 : @assembled R (RNum rh) Debug case_allowed d156) by (eapply as_split; [exact A39|exact A78|exact E156]).
  destruct (C10_partial_proof rh 1 ltac:(lia)) as (r2 & Er2 & Lr2 & _).
  assert (Ar2 : @assembled R (RNum rh) Debug case_allowed r2) by (eapply as_radix4; [exact Er2|cbn; lia]).
  exists (@mixed_radix R (RNum rh) (@mixed_radix_2xn R (RNum rh) (@mixed_radix_4xn R (RNum rh) r2)) (@mixed_radix_5xn R (RNum rh) d156)). split.
  - apply as_mixed; [apply as_2xn, as_4xn|apply as_5xn]; auto.
  - change (2 * (4 * dht_len r2) * (5 * dht_len d156) = 104 * 120). rewrite L156, Lr2, L39. reflexivity.
Qed.

Lemma C21_case_proof : exists (d : Dht R) (xs : list (list R)), transforms d dht_spec /\ 0 < dht_len d /\ chunks_of (dht_len d) xs /\ length xs = 2.
Proof.
  exists (@dht_naive R (RNum rh) 3), [[1; 2; 3]; [4; 5; 6]]%R. split; [apply C01_proof|]. split; [cbn; lia|].
  split; [|reflexivity]. split; [discriminate|repeat constructor].
Qed.
Lemma C25_vocabulary_proof : conv [1; 2; 3]%R [4; 5; 6]%R = [31; 31; 28]%R /\ rev_tail [1; 2; 3]%R = [1; 3; 2]%R /\ neg_idx 5 2 = 3 /\ neg_idx 5 0 = 0.
Proof.
  split; [|split; [reflexivity|split; reflexivity]]. unfold conv. cbn -[Rmult Rplus].
  f_equal; [lra|f_equal; [lra|f_equal; lra]].
Qed.
