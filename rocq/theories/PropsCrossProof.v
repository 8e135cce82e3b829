(** * Proofs of the properties in PropsCross.v *)
From Verif Require Export ProfileTree NewSpec Api WordSpec.
From Verif Require Import PropsProfileProof PropsProcProof PropsNewProof PropsExactProof PropsWordProof PropsContractProof PropsParamProof PropsDebugProof NewTree NewAgree Lemmas Spec FloatTree NumTheory PropsMathProof MathProofs RootProofs.
From Coq Require Import NArith ZArith Reals Lia.

Lemma cross : narrow W32 W64.
Proof. discriminate. Qed.
Lemma never_wrong_agree {T} (d r : Dht T) f : agree_dht d r -> transforms r f -> never_wrong d f.
Proof.
  intros A [_ I O _]. destruct A as [L S S' G G']. split.
  - intros xs scratch y s P C H E. rewrite L in P, C. rewrite S in H. destruct (I xs scratch P C H) as (s' & E' & _).
    specialize (G (concat xs) scratch). rewrite E, E' in G. destruct G as [G|G]; [discriminate|]. now injection G.
  - intros xs output scratch i y s P C H H' E. rewrite L in P, C. rewrite S' in H'. destruct (O xs output scratch P C H H') as (i' & s' & E' & _).
    specialize (G' (concat xs) output scratch). rewrite E, E' in G'. destruct G' as [G'|G']; [discriminate|]. now injection G'.
Qed.

Lemma C78_constructors_proof T (NT : Num T) size m :
  (forall n, agree_new (@naive_run W32 T NT Debug size n) (@naive_run W64 T NT m size n)) /\
  (forall dw rw dh rh : Dht T, agree_dht dw rw -> agree_dht dh rh -> agree_new (@mixed_run W32 T NT Debug size dw dh) (@mixed_run W64 T NT m size rw rh)) /\
  (forall d r : Dht T, agree_dht d r -> agree_new (@radix2_run W32 T NT Debug size d) (@radix2_run W64 T NT m size r)) /\
  (forall d r : Dht T, agree_dht d r -> agree_new (@radix3_run W32 T NT Debug size d) (@radix3_run W64 T NT m size r)) /\
  (forall d r : Dht T, agree_dht d r -> agree_new (@radix4xn_run W32 T NT Debug size d) (@radix4xn_run W64 T NT m size r)) /\
  (forall d r : Dht T, agree_dht d r -> agree_new (@radix5_run W32 T NT Debug size d) (@radix5_run W64 T NT m size r)) /\
  (forall d r : Dht T, agree_dht d r -> agree_new (@radix6_run W32 T NT Debug size d) (@radix6_run W64 T NT m size r)) /\
  (forall dq rq dh rh : Dht T, agree_dht dq rq -> agree_dht dh rh -> agree_new (@split_run W32 T NT Debug size dq dh) (@split_run W64 T NT m size rq rh)) /\
  (forall n, agree_new (@radix4_run W32 T NT Debug size n) (@radix4_run W64 T NT m size n)) /\
  (forall d r : Dht T, agree_dht d r -> agree_new (@raders_run W32 T NT Debug size d) (@raders_run W64 T NT m size r)).
Proof.
  pose proof cross as HW.
  split; [apply (agree_naive HW)|]. split; [apply (agree_mixed HW)|]. split; [apply (agree_radix2 HW)|]. split; [apply (agree_radix3 HW)|].
  split; [apply (agree_radix4xn HW)|]. split; [apply (agree_radix5 HW)|]. split; [apply (agree_radix6 HW)|]. split; [apply (agree_split HW)|].
  split; [apply (agree_radix4 HW)|apply (agree_raders HW)].
Qed.
Lemma C78_calls_proof T (NT : Num T) size m t (d : Dht T) : @run_tree W32 T NT Debug size t = Ok d ->
  exists r, @run_tree W64 T NT m size t = Ok r /\ dht_len r = dht_len d /\
    dht_inplace_scratch r = dht_inplace_scratch d /\ dht_oop_scratch r = dht_oop_scratch d /\
    (forall x y, dht_process d x = Ok y -> dht_process r x = Ok y) /\
    (forall x s y, dht_process_with_scratch d x s = Ok y -> dht_process_with_scratch r x s = Ok y) /\
    (forall x o s y, dht_process_oop d x o s = Ok y -> dht_process_oop r x o s = Ok y).
Proof.
  intros E. destruct (new_ok _ _ _ (agree_tree cross m size t) E) as (r & E' & A). exists r. split; [exact E'|].
  pose proof A as [L S O I J]. repeat split; try congruence; intros *.
  - apply agree_ok. now apply agree_process.
  - apply agree_ok. apply I.
  - apply agree_ok. apply J.
Qed.
Lemma C78_exact_proof size t (d : Dht R) : (4 <= size)%N -> within (@isize_max W64) size t -> rad4_small t ->
  @run_tree W32 R (RNum rh) Debug size t = Ok d -> never_wrong d dht_spec.
Proof.
  intros S Hw B E. destruct (new_ok _ _ _ (agree_tree cross Debug size t) E) as (r & E' & A).
  apply (never_wrong_agree d r _ A). eapply (C57_exact_proof W64 Debug); eauto using raders_fit_64.
Qed.
(** ** rounding *)
From Verif Require Import PropsFloatProof IeeeSpec Ieee.
From Flocq Require Import Core IEEE754.BinarySingleNaN.
Local Open Scope R_scope.
Lemma C78_f32_proof L t d : accurate L -> rad4_small t -> within (@isize_max W64) 4 t -> representable F32 t ->
  @run_tree W32 f32 (Num_f32 L) Debug 4 t = Ok d ->
  let '(a, b, c) := roundings t in
  let s := INR a * bpow radix2 (-24) + INR b * (bpow radix2 (-24) + bpow radix2 (-45)) + INR c * bpow radix2 (-24) in
  s <= / 2 ->
  exists f, never_wrong d f /\
    forall x k, length x = dht_len d -> (k < dht_len d)%nat -> Forall (fun v => is_finite v = true) x ->
      2 * (gain t * FloatSpec.size F32 x) <= bpow radix2 127 ->
      is_finite (nth k (f x) (B754_zero false)) = true /\
      Rabs (B2R (nth k (f x) (B754_zero false)) - dht_at (map B2R x) k) <= 2 * s * (gain t * FloatSpec.size F32 x).
Proof.
  intros A B Hw P E. destruct (new_ok _ _ _ (agree_tree cross Debug 4 t) E) as (r & E' & G).
  pose proof (C57_f32_proof W64 L Debug t r A (or_intror (conj eq_refl B)) Hw (raders_fit_64 t) P E') as H.
  destruct (roundings t) as [[a b] c]. intros s Hs. destruct (H Hs) as (f & F & K). exists f.
  split; [exact (never_wrong_agree d r f G F)|]. rewrite (ag_len _ _ G). exact K.
Qed.
Lemma C78_f64_proof L t d : accurate L -> rad4_small t -> within (@isize_max W64) 8 t -> representable F64 t ->
  @run_tree W32 f64 (Num_f64 L) Debug 8 t = Ok d ->
  let '(a, b, c) := roundings t in
  let s := INR a * bpow radix2 (-53) + INR b * bpow radix2 (-46) + INR c * bpow radix2 (-24) in
  s <= / 2 ->
  exists f, never_wrong d f /\
    forall x k, length x = dht_len d -> (k < dht_len d)%nat -> Forall (fun v => is_finite v = true) x ->
      2 * (gain t * FloatSpec.size F64 x) <= bpow radix2 1023 ->
      is_finite (nth k (f x) (B754_zero false)) = true /\
      Rabs (B2R (nth k (f x) (B754_zero false)) - dht_at (map B2R x) k) <= 2 * s * (gain t * FloatSpec.size F64 x).
Proof.
  intros A B Hw P E. destruct (new_ok _ _ _ (agree_tree cross Debug 8 t) E) as (r & E' & G).
  pose proof (C57_f64_proof W64 L Debug t r A (or_intror (conj eq_refl B)) Hw (raders_fit_64 t) P E') as H.
  destruct (roundings t) as [[a b] c]. intros s Hs. destruct (H Hs) as (f & F & K). exists f.
  split; [exact (never_wrong_agree d r f G F)|]. rewrite (ag_len _ _ G). exact K.
Qed.
(** the root of 66293 is 2, so its inverse is 33147: the constructor returns, as 66292 * 33147 < 2^32, although 66293 > 2^16 *)
Lemma C78_case_proof n : N.of_nat n = 66292%N -> rad4_small (Rader (Naive n)) /\ within (@isize_max W64) 4 (Rader (Naive n)) /\
  exists d, @run_tree W32 R (RNum rh) Debug 4 (Rader (Naive n)) = Ok d /\ dht_len d = (n + 1)%nat.
Proof.
  intros En. split; [exact Logic.I|]. split; [cbn [within tree_len]; change (@isize_max W64) with 9223372036854775807%N; lia|].
  set (t := Rader (Naive n)).
  assert (P : nprime 66293) by (apply quick_prime; vm_compute; reflexivity).
  assert (Ln : dht_len (@dht_naive R (RNum rh) n) = n) by (cbn [dht_len dht_naive boilerplate_dht_oop]; unfold naive_twiddles; now rewrite map_length, seq_length).
  assert (Lp : (N.of_nat (dht_len (@dht_naive R (RNum rh) n) + 1) = 66293)%N) by (rewrite Ln; lia).
  assert (B : @build R (RNum rh) Debug (Naive n) = Ok (dht_naive n)) by reflexivity.
  destruct (tree_transforms R (RNum rh) Debug _ _ (Logic.I : in_range (Naive n)) B) as [f F].
  destruct (@C27_rader_proof R (RNum rh) Debug (@dht_naive R (RNum rh) n) f F) as [_ H]; [lia|rewrite Lp; discriminate|].
  destruct H as [D ED]; [rewrite Lp; exact P|].
  assert (BD : @build R (RNum rh) Debug t = Ok D) by (unfold t; cbn [build bind]; exact ED).
  exists D. split.
  - rewrite C55_complete_proof; [exact BD|discriminate|discriminate| |].
    + unfold t. cbn [within tree_len]. change (@ample W32) with 268435456%N. lia.
    + unfold t. cbn [raders_fit tree_len]. split; [exact Logic.I|]. replace (N.of_nat (n + 1)) with 66293%N by lia.
      assert (H : primitive_root Debug 66293 = Ok (Some 2%N)) by (vm_compute; reflexivity).
      apply (proj2 (C77_decide_proof Debug 66293 2 33147 P ltac:(split; discriminate) H eq_refl eq_refl)). split; reflexivity.
  - pose proof (build_len Debug t D BD) as Ld. unfold t in Ld. cbn [tree_len] in Ld. exact Ld.
Qed.
