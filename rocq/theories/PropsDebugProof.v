(** * Proofs of the properties in PropsDebug.v *)
From Verif Require Export Spec Api New NewSpec FloatSpec Ieee IeeeSpec NumSpec.
From Verif Require Import PropsNewProof Euclid RootDebug RootProofs TreeProof NewProof NewTree PropsMathProof PropsExactProof PropsFloatProof FloatTree.
From Flocq Require Import Core IEEE754.BinarySingleNaN.
From Coq Require Import NArith Reals Lia Lra List.
Import ListNotations.

Lemma C53_root_proof p : nprime p -> (2 ^ 32 < p < 2 ^ 64)%N -> primitive_root Debug p = Panic.
Proof. intros P [L U]. now apply root_overflows. Qed.
Lemma C53_rader_proof T (NT : Num T) (d D : Dht T) : (N.of_nat (dht_len d) + 1 < 2 ^ 64)%N -> raders Debug d = Ok D ->
  nprime (N.of_nat (dht_len D)) /\ (3 <= N.of_nat (dht_len D) <= 2 ^ 32)%N.
Proof.
  intros U E. pose proof (raders_debug_len _ _ _ _ U E) as B. destruct (raders_len _ _ _ E) as [L _].
  assert (P : nprime (N.of_nat (dht_len D))).
  { rewrite L. unfold raders in E. destruct (miller_rabin (N.of_nat (dht_len d + 1))) eqn:M; [|discriminate]. now apply miller_rabin_ok. }
  split; auto. split; auto. destruct P as [P _]. destruct (N.eq_dec (N.of_nat (dht_len D)) 2) as [Z|]; [|lia]. exfalso.
  rewrite L in Z. assert (Z' : (dht_len d + 1 = 2)%nat) by lia. unfold raders in E. cbv zeta in E. rewrite Z' in E.
  assert (Q : raders_roots Debug 2 = Panic) by (vm_compute; reflexivity). rewrite Q in E.
  destruct (rassert _); cbn [bind] in E; discriminate.
Qed.
Lemma C53_nesting_proof (A : allowed R) :
  (forall d, al_user A d -> transforms d dht_spec /\ modest d) -> (forall n, al_radix4 A n -> (n <= 64)%nat) ->
  (forall p, al_rader A p -> (N.of_nat p < 2 ^ 64)%N) ->
  forall d, @assembled R (RNum rh) Debug A d -> transforms d dht_spec.
Proof.
  intros U F P d H. apply (C12_proof Debug (capped A)); auto. now apply assembled_capped.
Qed.

Lemma repr_lengths {T} (F : fmt T) t : representable F t -> lengths64 t.
Proof.
  induction t; cbn [representable lengths64]; intros [H R]; unfold usz in H; (split; [rewrite Nat2N.inj_mul in H; lia|]); try tauto.
Qed.
Lemma constructed (W : width) T (NT : Num T) (F : fmt T) size t (d : Dht T) : (4 <= size)%N -> within isize_max size t -> raders_fit t -> rad4_small t -> representable F t ->
  construct Debug size t = Ok d -> in_range t /\ build Debug t = Ok d.
Proof.
  intros S Hw Hf R4 Rp E. assert (B : build Debug t = Ok d).
  { destruct (construct_agrees Debug size S t Hw Hf) as [Q|Q]; congruence. }
  split; auto. eapply build_in_range; eauto. eapply repr_lengths; eauto.
Qed.
Local Open Scope R_scope.
Lemma C54_f32_proof (W : width) L t d : accurate L -> rad4_small t -> within isize_max 4 t -> raders_fit t -> representable F32 t ->
  @construct W f32 (Num_f32 L) Debug 4 t = Ok d ->
  let '(a, b, c) := roundings t in
  let s := INR a * bpow radix2 (-24) + INR b * (bpow radix2 (-24) + bpow radix2 (-45)) + INR c * bpow radix2 (-24) in
  s <= / 2 ->
  exists f, transforms d f /\
    forall x k, length x = dht_len d -> (k < dht_len d)%nat -> Forall (fun v => is_finite v = true) x ->
      2 * (gain t * FloatSpec.size F32 x) <= bpow radix2 127 ->
      is_finite (nth k (f x) (B754_zero false)) = true /\
      Rabs (B2R (nth k (f x) (B754_zero false)) - dht_at (map B2R x) k) <= 2 * s * (gain t * FloatSpec.size F32 x).
Proof.
  intros A R4 Hw Hf Rp E. destruct (constructed W f32 (Num_f32 L) F32 4 t d ltac:(discriminate) Hw Hf R4 Rp E) as [I B].
  exact (C42_f32_proof L Debug t d A I Rp B).
Qed.
Lemma C54_f64_proof (W : width) L t d : accurate L -> rad4_small t -> within isize_max 8 t -> raders_fit t -> representable F64 t ->
  @construct W f64 (Num_f64 L) Debug 8 t = Ok d ->
  let '(a, b, c) := roundings t in
  let s := INR a * bpow radix2 (-53) + INR b * bpow radix2 (-46) + INR c * bpow radix2 (-24) in
  s <= / 2 ->
  exists f, transforms d f /\
    forall x k, length x = dht_len d -> (k < dht_len d)%nat -> Forall (fun v => is_finite v = true) x ->
      2 * (gain t * FloatSpec.size F64 x) <= bpow radix2 1023 ->
      is_finite (nth k (f x) (B754_zero false)) = true /\
      Rabs (B2R (nth k (f x) (B754_zero false)) - dht_at (map B2R x) k) <= 2 * s * (gain t * FloatSpec.size F64 x).
Proof.
  intros A R4 Hw Hf Rp E. destruct (constructed W f64 (Num_f64 L) F64 8 t d ltac:(discriminate) Hw Hf R4 Rp E) as [I B].
  exact (C42_f64_proof L Debug t d A I Rp B).
Qed.
Lemma C54_case_proof (W : width) L : accurate L -> rad4_small case_tree /\ within isize_max 8 case_tree /\ raders_fit case_tree /\ representable F64 case_tree /\
  exists d, @construct W f64 (Num_f64 L) Debug 8 case_tree = Ok d.
Proof.
  intros A. destruct (C42_case64_proof L Debug A) as (_ & Rp & (d & B) & _).
  assert (Hf : raders_fit case_tree) by (unfold case_tree; fit).
  split; [cbn; tauto|]. split; [destruct W; cbn [within case_tree tree_len]; repeat split; discriminate|]. split; [exact Hf|]. split; [exact Rp|].
  exists d. rewrite <- B. apply C52_complete_proof; auto; destruct W; cbn [within case_tree tree_len]; repeat split; discriminate.
Qed.
