(** * Proofs of the properties in PropsWord.v *)
From Verif Require Export Proc Api NewSpec NumSpec Spec.
From Verif Require Import Contract WordProof WordSilent WordRelease TreeReal RadersProof RadersContract Residues Lemmas NumTheory DHTTheory RealDHT PropsNewProof PropsProcProof PropsExactProof PropsParamProof PropsContractProof PropsSafetyProof ApiProof RootProofs RootDebug Euclid FloatTree TreeProof PropsMathProof NewTree ProcTree NewAgree NewProof.
From Verif Require Export WordSpec.
From Coq Require Import NArith Reals Lia.

Lemma C77_targets_proof T (NT : Num T) m size t : (4 <= size)%N -> (size <= 2 ^ 28)%N -> within (2 ^ 28) size t -> @raders_fit W32 t ->
  @run_tree W32 T NT m size t = @run_tree W64 T NT m size t.
Proof.
  intros S S' Hw F. rewrite (C55_complete_proof W32), (C55_complete_proof W64); auto.
  - apply N.le_trans with (2 ^ 28)%N; [exact S'|discriminate].
  - apply (within_mono size S (2 ^ 28)); [discriminate|exact Hw].
  - apply raders_fit_64.
Qed.
Lemma C77_new_proof T (NT : Num T) size (d : Dht T) r s : let p := dht_len d + 1 in nprime (N.of_nat p) -> (3 <= N.of_nat p < 2 ^ 31)%N ->
  primitive_root Debug (N.of_nat p) = Ok (Some (N.of_nat r)) -> s < p -> (r * s) mod p = 1 -> (2 ^ 32 <= N.of_nat (p - 1) * N.of_nat s)%N ->
  @raders_run W32 T NT Debug size d = Panic.
Proof.
  intros p P [P3 U] Er Ls I O. apply (debug_new (W := W32) size d r s); fold p; auto; try lia.
Qed.
Lemma C77_large_proof T (NT : Num T) size (d D : Dht T) : (2 ^ 22 <= N.of_nat (dht_len d) + 1 < 2 ^ 31)%N ->
  @raders_run W32 T NT Debug size d = Ok D -> never_returns D.
Proof.
  intros [L U] E. pose proof E as E'. apply raders_run_inv in E'; [|exact U]. destruct E' as (_ & _ & _ & _ & _ & _ & M & _).
  set (p := dht_len d + 1) in *. apply miller_rabin_ok in M. change (2 ^ 22)%N with 4194304%N in L. change (2 ^ 31)%N with 2147483648%N in U.
  assert (Hp : (N.of_nat p = N.of_nat (dht_len d) + 1)%N) by (unfold p; lia).
  assert (P3 : 3 <= p) by lia. assert (Pu : (N.of_nat p <= 2 ^ 32)%N) by (change (2 ^ 32)%N with 4294967296%N; lia).
  destruct (raders_roots_ok Debug p M P3 Pu) as (r & s & Er & Rr & Ls & _ & _ & I).
  destruct (primitive_root_ok Debug (N.of_nat p) M) as (r0 & E0 & _); [lia|].
  assert (R0 : r = N.to_nat r0) by (eapply root_first; [|exact Er]; rewrite N2Nat.id; exact E0).
  assert (E0' : primitive_root Debug (N.of_nat p) = Ok (Some (N.of_nat r))) by (rewrite R0, N2Nat.id; exact E0).
  assert (Sp : (@span W32 / 2 = 2147483648)%N) by reflexivity. assert (Sq : (@span W32 = 4294967296)%N) by reflexivity.
  destruct (N.le_gt_cases (@span W32) (N.of_nat (p - 1) * N.of_nat s)) as [B|B].
  - rewrite (debug_new (W := W32) size d r s) in E; fold p; auto; try discriminate. lia.
  - destruct (N.le_gt_cases (@span W32) (N.of_nat (p - 1) * N.of_nat r)) as [B'|B'].
    + apply (debug_process (W := W32) size d D r); fold p; auto. lia.
    + exfalso. rewrite Sq in B, B'.
      assert (RS : p + 1 <= r * s).
      { pose proof (Nat.div_mod (r * s) p ltac:(lia)) as Q. rewrite I in Q. destruct (r * s / p) as [|q]; [|nia].
        exfalso. assert (r * s = 1) by lia. nia. }
      clear - L Hp B B' RS P3. set (a := N.of_nat (p - 1)) in *. assert (A : (4194303 <= a)%N) by lia.
      assert (RS' : (a <= N.of_nat r * N.of_nat s)%N) by (unfold a; lia).
      set (x := N.of_nat r) in *. set (y := N.of_nat s) in *. clearbody a x y.
      assert (a * x <= 4294967295 /\ a * y <= 4294967295)%N as [H1 H2] by lia.
      pose proof (N.mul_le_mono _ _ _ _ H1 H2) as H3. assert (H4 : (a * a * a <= a * x * (a * y))%N).
      { replace (a * x * (a * y))%N with (a * a * (x * y))%N by ring. apply N.mul_le_mono_l. exact RS'. }
      assert (H5 : (4194303 * 4194303 * 4194303 <= a * a * a)%N) by (repeat apply N.mul_le_mono; exact A). lia.
Qed.

(** ** exactly the lengths that fit *)
Lemma least_unique p r r' : least_root p r -> least_root p r' -> r = r'.
Proof.
  intros (R & G & L) (R' & G' & L'). destruct (N.lt_trichotomy r r') as [H|[H|H]]; [exfalso; apply (L' r); auto; lia|exact H|exfalso; apply (L r'); auto; lia].
Qed.
Lemma least_found m p r : nprime p -> (3 <= p <= 2 ^ 32)%N -> least_root p r <-> primitive_root m p = Ok (Some r).
Proof.
  intros P B. destruct (C28_proof m p P B) as (r0 & E & R & G & L). assert (K : least_root p r0) by (split; auto). rewrite E. split.
  - intros H. now rewrite (least_unique p r r0).
  - intros [= <-]. exact K.
Qed.
Lemma inverse_unique p r s s' : nprime p -> (s < p)%N -> (s' < p)%N -> ((r * s) mod p = 1)%N -> ((r * s') mod p = 1)%N -> s = s'.
Proof.
  intros [P _] S S' E E'. rewrite <- (N.mod_small s p), <- (N.mod_small s' p) by auto.
  assert (A : ((s * (r * s')) mod p = s mod p)%N) by (rewrite <- N.mul_mod_idemp_r, E', N.mul_1_r by lia; reflexivity).
  assert (B : ((s' * (r * s)) mod p = s' mod p)%N) by (rewrite <- N.mul_mod_idemp_r, E, N.mul_1_r by lia; reflexivity).
  rewrite <- A, <- B. f_equal. ring.
Qed.
Lemma C77_decide_proof m p r s : nprime p -> (3 <= p <= 2 ^ 32)%N -> primitive_root m p = Ok (Some r) -> (s < p)%N -> ((r * s) mod p = 1)%N ->
  @rader_fits W32 p <-> ((p - 1) * r < 2 ^ 32)%N /\ ((p - 1) * s < 2 ^ 32)%N.
Proof.
  intros P B E S I. assert (K : least_root p r) by (apply (least_found m); auto). split.
  - intros F. apply F; auto.
  - intros H _ r' s' K' S' I'. rewrite (least_unique p r' r) in * by auto. now rewrite (inverse_unique p r s' s).
Qed.
Lemma C77_range_proof p : nprime p -> ((p <= 2 ^ 16)%N -> @rader_fits W32 p) /\ ((2 ^ 22 <= p <= 2 ^ 32)%N -> ~ @rader_fits W32 p).
Proof.
  intros P. split; [apply small_fits|]. change (2 ^ 22)%N with 4194304%N. intros [L U] F.
  assert (Pn : N.of_nat (N.to_nat p) = p) by apply N2Nat.id.
  destruct (raders_roots_ok Debug (N.to_nat p)) as (r & s & Er & Rr & Ls & _ & _ & I); [now rewrite Pn|lia|now rewrite Pn|].
  destruct (C28_proof Debug p P) as (r0 & E0 & K0); [split; [lia|exact U]|].
  assert (R0 : r = N.to_nat r0) by (apply (root_first Debug (N.to_nat p) _ r s); [rewrite Pn, N2Nat.id; exact E0|exact Er]).
  assert (K : least_root p (N.of_nat r)) by (rewrite R0, N2Nat.id; exact K0).
  destruct (F eq_refl (N.of_nat r) (N.of_nat s) K) as [B' B].
  { lia. }
  { rewrite <- Nat2N.inj_mul, <- Pn, <- Nat2N.inj_mod, I. reflexivity. }
  change (2 ^ 32)%N with 4294967296%N in B, B'.
  assert (RS : N.to_nat p + 1 <= r * s).
  { pose proof (Nat.div_mod (r * s) (N.to_nat p) ltac:(lia)) as Q. rewrite I in Q. destruct (r * s / N.to_nat p) as [|q]; [|nia].
    exfalso. assert (r * s = 1) by lia. nia. }
  set (a := (p - 1)%N) in *. assert (A : (4194303 <= a)%N) by lia.
  assert (RS' : (a <= N.of_nat r * N.of_nat s)%N) by (unfold a; lia).
  set (x := N.of_nat r) in *. set (y := N.of_nat s) in *. clearbody a x y. clear - A B B' RS'.
  assert (a * x <= 4294967295 /\ a * y <= 4294967295)%N as [H1 H2] by lia.
  pose proof (N.mul_le_mono _ _ _ _ H1 H2) as H3. assert (H4 : (a * a * a <= a * x * (a * y))%N).
  { replace (a * x * (a * y))%N with (a * a * (x * y))%N by ring. apply N.mul_le_mono_l. exact RS'. }
  assert (H5 : (4194303 * 4194303 * 4194303 <= a * a * a)%N) by (repeat apply N.mul_le_mono; exact A). lia.
Qed.
(** the first length that does not fit *)
Definition fits_check (p : N) : bool :=
  negb (miller_rabin p) ||
  match primitive_root Release p, modular_exponent Release (match primitive_root Release p with Ok (Some r) => r | _ => 0%N end) (p - 2) p with
  | Ok (Some r), Ok s => (s <? p)%N && ((r * s) mod p =? 1)%N && ((p - 1) * r <? 2 ^ 32)%N && ((p - 1) * s <? 2 ^ 32)%N
  | _, _ => false
  end.
Lemma C77_first_proof : (forall p, nprime p -> (p < 67679)%N -> @rader_fits W32 p) /\ nprime 67679 /\ ~ @rader_fits W32 67679.
Proof.
  assert (P' : nprime 67679) by (apply quick_prime; vm_compute; reflexivity). split; [|split; [exact P'|]].
  - intros p P B. destruct (N.le_gt_cases p 65536) as [Sm|Lg]; [now apply small_fits|].
    assert (C : forallb (fun k => fits_check (65536 + N.of_nat k)) (seq 0 (N.to_nat 2143)) = true) by (vm_compute; reflexivity).
    rewrite forallb_forall in C. specialize (C (N.to_nat (p - 65536))). rewrite N2Nat.id, N.add_comm, N.sub_add in C by lia.
    assert (M : fits_check p = true) by (apply C, in_seq; lia). clear C. unfold fits_check in M. rewrite (proj2 (miller_rabin_ok p) P) in M. cbn [negb orb] in M.
    destruct (primitive_root Release p) as [[r|]| | |] eqn:Er; try discriminate. destruct (modular_exponent Release r (p - 2) p) as [s| | |]; try discriminate.
    apply andb_prop in M as [M M4]. apply andb_prop in M as [M M3]. apply andb_prop in M as [M1 M2].
    refine (proj2 (C77_decide_proof Release p r s P _ Er _ _) _); [change (2 ^ 32)%N with 4294967296%N; lia|now apply N.ltb_lt|now apply N.eqb_eq|].
    split; now apply N.ltb_lt.
  - intros F. assert (H : primitive_root Debug 67679 = Ok (Some 19%N)) by (vm_compute; reflexivity).
    destruct (proj1 (C77_decide_proof Debug 67679 19 64117 P' ltac:(split; discriminate) H eq_refl eq_refl) F) as [_ F']. discriminate F'.
Qed.
Lemma C77_exactly_proof T (NT : Num T) size (d : Dht T) f : let p := (N.of_nat (dht_len d) + 1)%N in
  nprime p -> (3 <= p)%N -> transforms d f -> safe_rust d ->
  (4 <= size)%N -> (p * size <= 2 ^ 28)%N -> (N.of_nat (dht_inplace_scratch d) * size <= 2 ^ 28)%N ->
  @rader_fits W32 p <-> exists D g, @raders_run W32 T NT Debug size d = Ok D /\ transforms D g.
Proof.
  intros p P P3 Tr Sd S4 B1 B2. change (2 ^ 28)%N with 268435456%N in B1, B2.
  assert (Hp : N.of_nat (dht_len d + 1) = p) by (unfold p; lia).
  assert (Pb : (4 * p <= 268435456)%N) by nia. assert (Sb : (size <= 268435456)%N) by nia.
  assert (Cb : (4 * N.of_nat (dht_inplace_scratch d) <= 268435456)%N) by nia.
  assert (U : (p <= 2 ^ 32)%N) by (change (2 ^ 32)%N with 4294967296%N; lia).
  split.
  - intros F. rewrite <- Hp in F.
    assert (O : dht_ok d f) by now apply transforms_ok.
    destruct (raders_ok Debug d f O) as (D & r & s & E & _ & _ & _ & _ & _ & _ & O' & _); [rewrite Hp; exact P|lia|rewrite Hp; exact U|].
    eexists D, _. split; [|apply transforms_ok; exact O'].
    rewrite (raders_run_same (W := W32) Debug size S4 d F); [|change (@span W32 / 2)%N with 2147483648%N; lia|exact Sd].
    rewrite (rader_same (W := W32) Debug size d F); [exact E|..]; cbn [unit_of]; try lia; try nia.
    intros b b' Eb. unfold dht_process in Eb. apply bind_inv in Eb. destruct Eb as ([x y] & Eb & [= <-]).
    eapply (proj2 (sr_inplace d Sd _ _)) in Eb. apply Eb.
  - intros (D & g & E & G) _ r s K S I.
    assert (E0 : primitive_root Debug (N.of_nat (dht_len d + 1)) = Ok (Some (N.of_nat (N.to_nat r)))) by (rewrite Hp, N2Nat.id; apply (least_found Debug); auto).
    assert (Pm : N.of_nat (dht_len d + 1 - 1) = (p - 1)%N) by lia.
    assert (Pn : nprime (N.of_nat (dht_len d + 1))) by (rewrite Hp; exact P).
    split.
    + apply N.nle_gt. intros O.
      assert (Nv : never_returns D).
      { apply (debug_process (W := W32) size d D (N.to_nat r)); auto; [lia|rewrite Hp; exact U|change (@span W32 / 2)%N with 2147483648%N; lia|].
        rewrite Pm, N2Nat.id. exact O. }
      apply raders_run_inv in E; [|change (@span W32 / 2)%N with 2147483648%N; unfold p in Pb; lia].
      destruct E as (r' & ri & tws & sl & _ & _ & _ & -> & _). destruct G as [_ G _ _]. cbn [dht_len boilerplate_dht dht_inplace_scratch] in G.
      destruct (G [repeat nzero (dht_len d + 1)] (repeat nzero sl)) as (s' & Es & _).
      * lia.
      * split; [discriminate|]. constructor; [apply repeat_length|constructor].
      * now rewrite repeat_length.
      * exact (proj1 Nv _ _ _ Es).
    + apply N.nle_gt. intros O.
      rewrite (debug_new (W := W32) size d (N.to_nat r) (N.to_nat s)) in E; [discriminate|auto|lia|rewrite Hp; exact U|change (@span W32 / 2)%N with 2147483648%N; lia|exact E0|lia| |].
      * rewrite <- N2Nat.inj_mul. apply Nat2N.inj. rewrite Nat2N.inj_mod, N2Nat.id, Hp, I. reflexivity.
      * rewrite Pm, N2Nat.id. exact O.
Qed.
Definition units_right (D : Dht R) (p : nat) : Prop := forall a, a < p ->
  exists i e, dht_process_oop D (unit_vec p a) (unit_vec p a) (repeat 0%R (dht_oop_scratch D)) = Ok (i, dht_spec (unit_vec p a), e).
Lemma units_fit size (d D : Dht R) : let p := (N.of_nat (dht_len d) + 1)%N in
  nprime p -> (3 <= p < 2147483648)%N -> transforms d dht_spec -> @raders_run W32 R (RNum rh) Release size d = Ok D ->
  units_right D (dht_len d + 1) -> @rader_fits W32 p.
Proof.
  intros p P [P3 Pb] Tr E G. assert (Hp : N.of_nat (dht_len d + 1) = p) by (unfold p; lia).
  assert (U : (p <= 2 ^ 32)%N) by (change (2 ^ 32)%N with 4294967296%N; lia).
  assert (O : dht_ok d dht_spec) by now apply transforms_ok.
  destruct (N.le_gt_cases p 4) as [L|L]; [apply small_fits; change (2 ^ 16)%N with 65536%N; lia|].
  intros _ r s K S I.
  assert (E0 : primitive_root Release (N.of_nat (dht_len d + 1)) = Ok (Some (N.of_nat (N.to_nat r)))) by (rewrite Hp, N2Nat.id; apply (least_found Release); auto).
  assert (Pm : N.of_nat (dht_len d + 1 - 1) = (p - 1)%N) by lia.
  assert (Pn : nprime (N.of_nat (dht_len d + 1))) by (rewrite Hp; exact P).
  destruct (roots_of Release (dht_len d + 1) (N.to_nat r) (N.to_nat s)) as [Er _]; [exact Pn|lia|rewrite Hp; exact U|exact E0|lia| |].
  - rewrite <- N2Nat.inj_mul. apply Nat2N.inj. rewrite Nat2N.inj_mod, N2Nat.id, Hp, I. reflexivity.
  - pose proof (release_fits size d D O Pn ltac:(lia) ltac:(lia) E G _ _ Er) as Q. rewrite Pm, !N2Nat.id in Q. exact Q.
Qed.
Lemma units_of size (d D : Dht R) : (N.of_nat (dht_len d) + 1 < 2147483648)%N -> @raders_run W32 R (RNum rh) Release size d = Ok D -> transforms D dht_spec ->
  units_right D (dht_len d + 1).
Proof.
  intros U E G a Ha. apply raders_run_inv in E; [|exact U]. destruct E as (r & ri & tws & sl & _ & _ & _ & E & _).
  assert (LD : dht_len D = dht_len d + 1) by (rewrite E; reflexivity). clear E. apply transforms_ok in G. set (x := unit_vec (dht_len d + 1) a).
  assert (Lx : length x = dht_len d + 1) by (unfold x, unit_vec; now rewrite map_length, seq_length).
  destruct (ok_oop _ _ G ltac:(lia) 1 x x (repeat 0%R (dht_oop_scratch D))) as (i & e & Eo & _); [lia|lia|lia|now rewrite repeat_length|].
  exists i, e. rewrite Eo, LD. unfold map_chunks. pose proof (map_chunks_one (dht_len d + 1) dht_spec x) as M. unfold map_chunks in M. rewrite M by (try lia; auto). reflexivity.
Qed.
Lemma debug_dead T (NT : Num T) size (d D : Dht T) : let p := (N.of_nat (dht_len d) + 1)%N in (p < 2 ^ 31)%N -> ~ @rader_fits W32 p ->
  @raders_run W32 T NT Debug size d = Ok D -> never_returns D.
Proof.
  intros p0 U F E. pose proof E as E'. apply raders_run_inv in E'; [|exact U]. destruct E' as (_ & _ & _ & _ & _ & _ & M & _).
  set (p := dht_len d + 1) in *. apply miller_rabin_ok in M. change (2 ^ 31)%N with 2147483648%N in U.
  assert (Hp : N.of_nat p = p0) by (unfold p, p0; lia).
  assert (L : (65536 < p0)%N).
  { apply N.nle_gt. intros L. apply F, small_fits. exact L. }
  assert (P3 : 3 <= p) by lia. assert (Pu : (N.of_nat p <= 2 ^ 32)%N) by (change (2 ^ 32)%N with 4294967296%N; lia).
  destruct (raders_roots_ok Debug p M P3 Pu) as (r & s & Er & Rr & Ls & _ & _ & I).
  destruct (primitive_root_ok Debug (N.of_nat p) M) as (r0 & E0 & _); [lia|].
  assert (R0 : r = N.to_nat r0) by (eapply root_first; [|exact Er]; rewrite N2Nat.id; exact E0).
  assert (E0' : primitive_root Debug (N.of_nat p) = Ok (Some (N.of_nat r))) by (rewrite R0, N2Nat.id; exact E0).
  assert (Sp : (@span W32 / 2 = 2147483648)%N) by reflexivity.
  destruct (N.le_gt_cases (@span W32) (N.of_nat (p - 1) * N.of_nat s)) as [B|B].
  - rewrite (debug_new (W := W32) size d r s) in E; fold p; auto; try discriminate. lia.
  - destruct (N.le_gt_cases (@span W32) (N.of_nat (p - 1) * N.of_nat r)) as [B'|B'].
    + apply (debug_process (W := W32) size d D r); fold p; auto. lia.
    + exfalso. apply F. rewrite <- Hp. assert (Pm : N.of_nat (p - 1) = (N.of_nat p - 1)%N) by lia. rewrite Pm in B, B'.
      apply (proj2 (C77_decide_proof Debug (N.of_nat p) (N.of_nat r) (N.of_nat s) M ltac:(split; [lia|exact Pu]) E0' ltac:(lia)
        ltac:(rewrite <- Nat2N.inj_mul, <- Nat2N.inj_mod, I; reflexivity))).
      split; [exact B'|exact B].
Qed.
Lemma C77_debug_proof T (NT : Num T) size (d D : Dht T) : let p := (N.of_nat (dht_len d) + 1)%N in (p < 2 ^ 31)%N ->
  @raders_run W32 T NT Debug size d = Ok D -> @rader_fits W32 p \/ never_returns D.
Proof. intros p U E. destruct (Classical_Prop.classic (@rader_fits W32 p)) as [F|F]; [now left|right]. now apply (debug_dead T NT size d D). Qed.
Lemma C77_every_proof m size (d : Dht R) : let p := (N.of_nat (dht_len d) + 1)%N in
  nprime p -> (3 <= p)%N -> transforms d dht_spec -> safe_rust d ->
  (4 <= size)%N -> (p * size <= 2 ^ 28)%N -> (N.of_nat (dht_inplace_scratch d) * size <= 2 ^ 28)%N ->
  @rader_fits W32 p <-> exists D, @raders_run W32 R (RNum rh) m size d = Ok D /\ transforms D dht_spec.
Proof.
  intros p P P3 Tr Sd S4 B1 B2. pose proof (C77_exactly_proof R (RNum rh) size d dht_spec P P3 Tr Sd S4 B1 B2) as X. fold p in X. change (2 ^ 28)%N with 268435456%N in B1, B2.
  assert (Hp : N.of_nat (dht_len d + 1) = p) by (unfold p; lia).
  assert (Pb : (4 * p <= 268435456)%N) by nia. assert (Sb : (size <= 268435456)%N) by nia.
  assert (Cb : (4 * N.of_nat (dht_inplace_scratch d) <= 268435456)%N) by nia.
  assert (U : (p <= 2 ^ 32)%N) by (change (2 ^ 32)%N with 4294967296%N; lia).
  assert (O : dht_ok d dht_spec) by now apply transforms_ok.
  split.
  - intros F. rewrite <- Hp in F.
    destruct (TreeReal.raders_exact rh m d O) as (D & E & O'); [rewrite Hp; exact P|lia|rewrite Hp; exact U|].
    exists D. split.
    + rewrite (raders_run_same (W := W32) m size S4 d F); [|change (@span W32 / 2)%N with 2147483648%N; lia|exact Sd].
      rewrite (rader_same (W := W32) m size d F); [exact E|..]; cbn [unit_of]; try lia; try nia.
      intros b b' Eb. unfold dht_process in Eb. apply bind_inv in Eb. destruct Eb as ([x y] & Eb & [= <-]).
      eapply (proj2 (sr_inplace d Sd _ _)) in Eb. apply Eb.
    + now apply transforms_ok.
  - intros (D & E & G). destruct m; [apply X; eauto|]. apply (units_fit size d D); auto; [fold p; lia|]. apply (units_of size); auto. fold p. lia.
Qed.
Lemma C77_faulty_proof size (d : Dht R) : let p := dht_len d + 1 in
  nprime (N.of_nat p) -> 3 <= p -> transforms d dht_spec ->
  (4 <= size)%N -> (N.of_nat p * size <= 2 ^ 28)%N -> (N.of_nat (dht_inplace_scratch d) * size <= 2 ^ 28)%N -> ~ @rader_fits W32 (N.of_nat p) ->
  exists D a, @raders_run W32 R (RNum rh) Release size d = Ok D /\ dht_len D = p /\ a < p /\
    forall i s, dht_process_oop D (unit_vec p a) (unit_vec p a) (repeat 0%R (dht_oop_scratch D)) <> Ok (i, dht_spec (unit_vec p a), s).
Proof.
  intros p P P3 Tr S4 B1 B2 F. change (2 ^ 28)%N with 268435456%N in B1, B2. assert (Pb : (4 * N.of_nat p <= 268435456)%N) by nia.
  assert (U : (N.of_nat p <= 2 ^ 32)%N) by (change (2 ^ 32)%N with 4294967296%N; lia).
  destruct (raders_roots_ok Release p P P3 U) as (r & s & Er & _).
  destruct (release_new (W := W32) (NT := RNum rh) size d dht_spec r s) as (D & E & L); auto; [now apply transforms_ok|].
  exists D. apply Classical_Prop.NNPP. intros N. apply F.
  assert (Hp : N.of_nat p = (N.of_nat (dht_len d) + 1)%N) by (unfold p; lia). rewrite Hp in *.
  apply (units_fit size d D); auto; [lia|]. intros a Ha. fold p. apply Classical_Prop.NNPP. intros N'. apply N. exists a. split; [exact E|]. split; [exact L|]. split; [exact Ha|].
  intros i e Eo. apply N'. eauto.
Qed.
Lemma naive_safe n : safe_rust (@dht_naive R (RNum rh) n).
Proof. apply (@C17_proof R (RNum rh) Release ranged); [intros ? []|]. apply as_naive. Qed.
Lemma C77_every_case_proof : (exists D, @raders_run W32 R (RNum rh) Release 8 (@dht_naive R (RNum rh) 52) = Ok D /\ transforms D dht_spec) /\
  forall n, N.of_nat n = 67678%N -> ~ exists D, @raders_run W32 R (RNum rh) Release 8 (@dht_naive R (RNum rh) n) = Ok D /\ transforms D dht_spec.
Proof.
  assert (Ln : forall n, dht_len (@dht_naive R (RNum rh) n) = n) by (intros n; cbn [dht_len dht_naive boilerplate_dht_oop]; unfold naive_twiddles; now rewrite map_length, seq_length).
  assert (Ls : forall n, dht_inplace_scratch (@dht_naive R (RNum rh) n) = n) by (intros n; cbn [dht_inplace_scratch dht_naive boilerplate_dht_oop]; unfold naive_twiddles; now rewrite map_length, seq_length).
  split.
  - apply C77_every_proof; rewrite ?Ln, ?Ls; [apply quick_prime; vm_compute; reflexivity|discriminate|apply C01_proof|apply naive_safe|discriminate|discriminate|discriminate|].
    apply small_fits. discriminate.
  - intros n Hn H. apply C77_every_proof in H; rewrite ?Ln, ?Ls, ?Hn in *; [revert H; apply C77_first_proof|apply C77_first_proof|discriminate|apply C01_proof|apply naive_safe|discriminate|discriminate|discriminate].
Qed.
Lemma C77_faulty_case_proof n : N.of_nat n = 67678%N -> let d := @dht_naive R (RNum rh) n in let p := dht_len d + 1 in
  nprime (N.of_nat p) /\ 3 <= p /\ transforms d dht_spec /\ (N.of_nat p * 8 <= 2 ^ 28)%N /\ (N.of_nat (dht_inplace_scratch d) * 8 <= 2 ^ 28)%N /\ ~ @rader_fits W32 (N.of_nat p).
Proof.
  intros Hn d p.
  assert (Ln : dht_len d = n) by (unfold d; cbn [dht_len dht_naive boilerplate_dht_oop]; unfold naive_twiddles; now rewrite map_length, seq_length).
  assert (Ls : dht_inplace_scratch d = n) by (unfold d; cbn [dht_inplace_scratch dht_naive boilerplate_dht_oop]; unfold naive_twiddles; now rewrite map_length, seq_length).
  assert (Hp : N.of_nat p = 67679%N) by (unfold p; lia). rewrite Hp, Ls, Hn.
  split; [apply C77_first_proof|]. split; [lia|]. split; [apply C01_proof|]. split; [discriminate|]. split; [discriminate|]. apply C77_first_proof.
Qed.
Lemma witness_prime : nprime 96847.
Proof. apply quick_prime; vm_compute; reflexivity. Qed.
Lemma witness_roots p : N.of_nat p = 96847%N -> exists r s, raders_roots Release p = Ok (r, s) /\ N.of_nat s = 64565%N.
Proof.
  intros E. exists (N.to_nat 3), (N.to_nat 64565). split; [|apply N2Nat.id].
  apply roots_of; rewrite ?E, ?N2Nat.id; [exact witness_prime|lia|discriminate|vm_compute; reflexivity|lia|].
  rewrite <- (Nat2N.id p), E, <- N2Nat.inj_mul, <- N2Nat.inj_mod. reflexivity.
Qed.
(** the 27th output index is 0 *)
Lemma witness_walk p s : N.of_nat p = 96847%N -> N.of_nat s = 64565%N -> walk (step_or_stop (W := W32) Release s p) 27 1 = Panic.
Proof.
  intros P S. rewrite <- (Nat2N.id p), <- (Nat2N.id s), P, S.
  assert (H : match walk (step_or_stop (W := W32) Release (N.to_nat 64565) (N.to_nat 96847)) 27 1 with Panic => true | _ => false end = true)
    by (vm_compute; reflexivity).
  destruct (walk _ _ _); [discriminate|reflexivity|discriminate|discriminate].
Qed.
Lemma C77_release_proof : nprime 96847 /\ forall T (NT : Num T) size (d : Dht T) f, (N.of_nat (dht_len d) + 1 = 96847)%N -> transforms d f -> safe_rust d ->
  (4 <= size <= 2048)%N -> (N.of_nat (dht_inplace_scratch d) * size <= 2 ^ 28)%N ->
  exists D, @raders_run W32 T NT Release size d = Ok D /\ N.of_nat (dht_len D) = 96847%N /\ never_returns D.
Proof.
  split; [exact witness_prime|]. intros T NT size d f L Tr Sd [S1 S2] B.
  assert (Hp : N.of_nat (dht_len d + 1) = 96847%N) by lia.
  destruct (witness_roots _ Hp) as (r0 & s0 & Er & Es).
  destruct (release_new (W := W32) size d f r0 s0) as (D & E & LD); auto.
  - now apply transforms_ok.
  - rewrite Hp. exact witness_prime.
  - lia.
  - rewrite Hp. discriminate.
  - rewrite Hp. change (unit_of W32) with (2 ^ 28)%N. change (2 ^ 28)%N with 268435456%N. lia.
  - exists D. split; [exact E|]. split; [now rewrite LD|]. apply (release_process (W := W32) size d D Sd); auto.
    + change (@span W32 / 2)%N with 2147483648%N. lia.
    + intros r s x Er2. rewrite Er in Er2. assert (s = s0) by congruence. subst s. intros Ew.
      destruct (walk_prefix _ _ _ _ Ew 27 ltac:(lia)) as [y Ey]. rewrite (witness_walk _ _ Hp Es) in Ey. discriminate.
Qed.
Lemma witness_safe T (NT : Num T) n : @safe_rust T (dht_naive n).
Proof. apply (C17_proof Release anything); [intros ? []|]. apply (build_any Release (Naive n)). reflexivity. Qed.
Lemma right_64 n p : nprime p -> (N.of_nat n + 1 = p)%N -> (3 <= p <= 2 ^ 32)%N -> exists D, @run_tree W64 R (RNum rh) Release 4 (Rader (Naive n)) = Ok D /\ transforms D dht_spec.
Proof.
  intros P Hp [P3 Pu]. change (2 ^ 32)%N with 4294967296%N in Pu.
  assert (Ln : dht_len (@dht_naive R (RNum rh) n) = n) by (cbn [dht_len dht_naive boilerplate_dht_oop]; unfold naive_twiddles; now rewrite map_length, seq_length).
  assert (L : (N.of_nat (dht_len (@dht_naive R (RNum rh) n) + 1) = p)%N) by (rewrite Ln; lia).
  assert (B : @build R (RNum rh) Release (Naive n) = Ok (dht_naive n)) by reflexivity.
  destruct (PropsParamProof.tree_transforms R (RNum rh) Release _ _ (Logic.I : in_range (Naive n)) B) as [f F].
  destruct (@C27_rader_proof R (RNum rh) Release (@dht_naive R (RNum rh) n) f F) as [_ H]; [lia|rewrite L; exact Pu|].
  destruct H as [D ED]; [rewrite L; exact P|].
  assert (BD : @build R (RNum rh) Release (Rader (Naive n)) = Ok D) by (cbn [build bind]; exact ED).
  exists D. split.
  - rewrite C55_complete_proof; [exact BD|discriminate|discriminate| |apply raders_fit_64].
    cbn [within tree_len]. change (@ample W64) with 1152921504606846976%N. lia.
  - apply (C12_proof Release ranged); [intros ? []|auto|auto|]. apply build_ranged with (Rader (Naive n)); [|exact BD].
    cbn [in_range tree_len]. split; [exact Logic.I|]. change (2 ^ 32)%N with 4294967296%N. lia.
Qed.
Lemma C77_differ_proof n : N.of_nat n = 96846%N -> let t := Rader (Naive n) in
  (exists D, @run_tree W32 R (RNum rh) Release 4 t = Ok D /\ never_returns D) /\
  (exists D, @run_tree W64 R (RNum rh) Release 4 t = Ok D /\ transforms D dht_spec).
Proof.
  intros Hn. cbv zeta. assert (Ln : dht_len (@dht_naive R (RNum rh) n) = n) by (cbn [dht_len dht_naive boilerplate_dht_oop]; unfold naive_twiddles; now rewrite map_length, seq_length). assert (L : (N.of_nat (dht_len (@dht_naive R (RNum rh) n)) + 1 = 96847)%N) by (rewrite Ln; lia).
  assert (B : @build R (RNum rh) Release (Naive n) = Ok (dht_naive n)) by reflexivity.
  assert (I : in_range (Naive n)) by exact Logic.I.
  destruct (PropsParamProof.tree_transforms R (RNum rh) Release _ _ I B) as [f F].
  split.
  - destruct C77_release_proof as [_ H]. destruct (H R (RNum rh) 4%N _ f L F) as (D & E & _ & Nv); [apply witness_safe|split; discriminate| |].
    + change (dht_inplace_scratch (@dht_naive R (RNum rh) n)) with (dht_len (@dht_naive R (RNum rh) n)). rewrite Ln. rewrite Hn. discriminate.
    + exists D. split; [|exact Nv]. cbn [run_tree]. rewrite naive_run_same by discriminate. unfold naive_new, alloc. change (@span W32 / 2 - 1)%N with 2147483647%N. rewrite Hn. exact E.
  - apply (right_64 n 96847 witness_prime); [lia|split; discriminate].
Qed.
Lemma C77_case_proof : (nprime 67679 /\ primitive_root Debug 67679 = Ok (Some 19%N) /\ (19 * 64117 mod 67679 = 1)%N /\ (2 ^ 32 <= 67678 * 64117)%N) /\
  (nprime 65537 /\ @rader_fits W32 65537 /\ ~ @rader_fits W32 67679) /\
  (nprime 4194319 /\ (2 ^ 22 <= 4194319 < 2 ^ 31)%N) /\
  (within (2 ^ 28) 8 (Rader (Two (Naive 26))) /\ @raders_fit W32 (Rader (Two (Naive 26))) /\
   exists d, @build R (RNum rh) Debug (Rader (Two (Naive 26))) = Ok d).
Proof.
  split; [split; [apply quick_prime; vm_compute; reflexivity|]; split; [vm_compute; reflexivity|]; split; [vm_compute; reflexivity|discriminate]|].
  split.
  { assert (P : nprime 65537) by (apply quick_prime; vm_compute; reflexivity). split; [exact P|].
    split; [|apply C77_first_proof].
    assert (H : primitive_root Debug 65537 = Ok (Some 3%N)) by (vm_compute; reflexivity).
    apply (proj2 (C77_decide_proof Debug 65537 3 21846 P ltac:(split; discriminate) H eq_refl eq_refl)). split; reflexivity. }
  split; [split; [apply quick_prime; vm_compute; reflexivity|split; [discriminate|reflexivity]]|].
  split; [cbn [within tree_len]; repeat split; discriminate|]. split; [fit|].
  assert (Bt : exists d, @build R (RNum rh) Debug (Two (Naive 26)) = Ok d) by (cbn [build bind]; eauto).
  destruct Bt as [d Bd]. pose proof (build_len Debug _ d Bd) as Ld. cbn [tree_len] in Ld.
  assert (I : in_range (Two (Naive 26))) by exact Logic.I.
  destruct (PropsParamProof.tree_transforms R (RNum rh) Debug _ _ I Bd) as [f F].
  destruct (@C27_rader_proof R (RNum rh) Debug d f F) as [_ H]; [lia|rewrite Ld; discriminate|].
  destruct H as [D ED]; [rewrite Ld; apply quick_prime; vm_compute; reflexivity|].
  exists D. change (@build R (RNum rh) Debug (Rader (Two (Naive 26)))) with (d <- @build R (RNum rh) Debug (Two (Naive 26)) ;; @raders R (RNum rh) Debug d).
  rewrite Bd. exact ED.
Qed.

(** ** a wrong result *)
Lemma silent_prime : nprime 67679.
Proof. apply quick_prime; vm_compute; reflexivity. Qed.
Lemma silent_roots p : N.of_nat p = 67679%N -> raders_roots Release p = Ok (N.to_nat 19, N.to_nat 64117) /\ no_small_order p (N.to_nat 19).
Proof.
  intros E. destruct (roots_of Release p (N.to_nat 19) (N.to_nat 64117)) as (A & B & _);
    [rewrite E; exact silent_prime|lia|rewrite E; discriminate|rewrite E, N2Nat.id; vm_compute; reflexivity|lia| |split; [exact A|exact B]].
  rewrite <- (Nat2N.id p), E, <- N2Nat.inj_mul, <- N2Nat.inj_mod. reflexivity.
Qed.
Lemma silent_walk n : N.of_nat n = 67678%N -> snd (Nat.iter (n - 2) (wgo 67679 64117 64117) (wstep 67679 64117 64117, true)) = true.
Proof.
  intros E. replace (n - 2) with (N.to_nat 67676) by lia. rewrite <- N2Nat.inj_iter. vm_compute. reflexivity.
Qed.
Lemma boilerplate_one T n s o (f : list T -> list T -> res (list T * list T)) g x scr y scr' : 0 < n -> length x = n -> length scr = s -> length scr' = s ->
  f x scr = Ok (y, scr') -> length y = n -> dht_process_with_scratch (boilerplate_dht n s o f g) x scr = Ok (y, scr').
Proof.
  intros Hn Lx Ls Ls' E Ly. unfold boilerplate_dht. cbn [dht_process_with_scratch]. destruct (Nat.eqb_spec n 0); [lia|].
  rewrite Lx, Ls, !Nat.ltb_irrefl. cbn [orb]. rewrite split_at_ok by lia. cbn [bind]. rewrite (firstn_all2 scr), (skipn_all2 scr) by lia.
  unfold iter_chunks. rewrite Lx. destruct n as [|n']; [lia|]. cbn [iter_chunks_go]. rewrite Lx, Nat.leb_refl. rewrite split_at_ok by lia. cbn [bind].
  rewrite (firstn_all2 x), (skipn_all2 x) by lia. rewrite E. cbn [bind length Nat.leb Nat.eqb]. now rewrite !app_nil_r.
Qed.
Lemma boilerplate_one_oop T n s o (f : list T -> list T -> res (list T * list T)) g x out scr x' y scr' : 0 < n -> length x = n -> length out = n -> length scr = o -> length scr' = o ->
  g x out scr = Ok (x', y, scr') -> length x' = n -> length y = n -> dht_process_oop (boilerplate_dht n s o f g) x out scr = Ok (x', y, scr').
Proof.
  intros Hn Lx Lo Ls Ls' E Lx' Ly. unfold boilerplate_dht. cbn [dht_process_oop]. destruct (Nat.eqb_spec n 0); [lia|].
  rewrite Lx, Lo, Ls, !Nat.ltb_irrefl, Nat.eqb_refl. cbn [orb negb]. rewrite split_at_ok by lia. cbn [bind]. rewrite (firstn_all2 scr), (skipn_all2 scr) by lia.
  unfold iter_chunks_zipped. rewrite Lx, Lo, Nat.ltb_irrefl. destruct n as [|n']; [lia|]. cbn [iter_chunks_zipped_go]. rewrite Lx, Lo, Nat.leb_refl. cbn [andb].
  rewrite split_at_ok by lia. cbn [bind]. rewrite split_at_ok by lia. cbn [bind].
  rewrite (firstn_all2 x), (skipn_all2 x), (firstn_all2 out), (skipn_all2 out) by lia. rewrite E. cbn [bind length Nat.leb Nat.eqb andb negb]. now rewrite !app_nil_r.
Qed.
Lemma silent_run T (NT : Num T) size n : N.of_nat n = 67678%N -> (4 <= size <= 2048)%N ->
  exists D, @run_tree W32 T NT Release size (Rader (Naive n)) = Ok D /\ dht_len D = n + 1 /\ dht_inplace_scratch D = n /\ dht_oop_scratch D = 0 /\
    (forall x scratch, length x = n + 1 -> length scratch = n ->
      exists y s, dht_process_with_scratch D x scratch = Ok (y, s) /\ nth 2 y nzero = nth (N.to_nat 64117) y nzero) /\
    (forall x output, length x = n + 1 -> length output = n + 1 ->
      exists i y, dht_process_oop D x output [] = Ok (i, y, []) /\ nth 2 y nzero = nth (N.to_nat 64117) y nzero).
Proof.
  intros Hn [S1 S2].
  assert (Ln : dht_len (@dht_naive T NT n) = n) by (cbn [dht_len dht_naive boilerplate_dht_oop]; unfold naive_twiddles; now rewrite map_length, seq_length).
  assert (B : @build T NT Release (Naive n) = Ok (dht_naive n)) by reflexivity.
  destruct (PropsParamProof.tree_transforms T NT Release _ _ (Logic.I : in_range (Naive n)) B) as [f F].
  assert (Ei : dht_inplace_scratch (@dht_naive T NT n) = n) by exact Ln.
  assert (Hp : N.of_nat (n + 1) = 67679%N) by lia. destruct (silent_roots _ Hp) as [Er Or].
  assert (Pp : nprime (N.of_nat (n + 1))) by (rewrite Hp; exact silent_prime).
  destruct (release_new (W := W32) size (dht_naive n) f (N.to_nat 19) (N.to_nat 64117)) as (D & E & LD); rewrite ?Ln, ?Ei; auto; try lia.
  - now apply transforms_ok.
  - rewrite Hp. change (unit_of W32) with 268435456%N. lia.
  - rewrite Hn. change (unit_of W32) with 268435456%N. lia.
  - exists D. split; [|split; [now rewrite LD, Ln|]].
    + cbn [run_tree]. rewrite naive_run_same by lia. unfold naive_new, alloc. change (@span W32 / 2 - 1)%N with 2147483647%N. rewrite Hn. destruct (N.leb_spec (67678 * size) 2147483647); [exact E|lia].
    + pose proof E as E'. apply raders_run_inv in E'; [|rewrite Ln, Hn; reflexivity].
      destruct E' as (r & s & tws & sl & Er' & _ & _ & -> & (u & v & Ep & Lu & Et) & Es). clear E LD. rewrite !Ln in Er', Lu, Es |- *.
      assert (r = N.to_nat 19 /\ s = N.to_nat 64117) as [-> ->] by (rewrite Er in Er'; injection Er' as <- <-; auto).
      unfold raders_extra in Es |- *. rewrite Ei, Ln, Nat.leb_refl in Es |- *. rewrite uadd_fits in Es by (unfold in_word; change (@span W32) with 4294967296%N; lia).
      injection Es as <-. cbn [dht_inplace_scratch dht_oop_scratch boilerplate_dht]. split; [lia|]. split; [reflexivity|].
      assert (Hd : dht_ok (dht_naive n) f) by now apply transforms_ok.
      rewrite (dht_process_ok _ f) in Ep by (first [exact Hd|lia]). injection Ep as <-.
      apply twiddles_run_length in Et. rewrite (ok_len _ _ Hd) in Et by lia. rewrite Ln in Et.
      assert (Ev : n = 2 * (n / 2)). { pose proof (odd_prime_even _ (std_of _ Pp) ltac:(lia)) as Q. now rewrite Nat.add_sub in Q. }
      assert (Dp : distinct_powers (n + 1) (N.to_nat 19)) by (apply order_distinct; auto using std_of; lia).
      pose proof (silent_walk n Hn) as Wk.
      split; intros x o Lx Lo.
      * destruct (inplace_silent n (N.to_nat 19) (N.to_nat 64117) tws x o) as (y & s' & Ey & Ly & Ls' & K); auto; try lia.
        { rewrite Hp, N2Nat.id. exact Wk. }
        exists y, s'. split; [|exact K]. apply boilerplate_one; auto; lia.
      * destruct (oop_silent n (N.to_nat 19) (N.to_nat 64117) tws x o) as (i & y & Ey & Li & Ly & K); auto; try lia.
        { rewrite Hp, N2Nat.id. exact Wk. }
        exists i, y. split; [|exact K]. apply boilerplate_one_oop; auto; lia.
Qed.
Lemma C77_silent_proof n : N.of_nat n = 67678%N -> let t := Rader (Naive n) in
  (exists D, @run_tree W32 R (RNum rh) Release 4 t = Ok D /\ dht_len D = n + 1 /\ exists x, length x = n + 1 /\
    (forall scratch, length scratch = dht_inplace_scratch D -> exists y s, dht_process_with_scratch D x scratch = Ok (y, s) /\ y <> dht_spec x) /\
    (forall output, length output = n + 1 -> exists i y s, dht_process_oop D x output [] = Ok (i, y, s) /\ y <> dht_spec x)) /\
  (exists D, @run_tree W64 R (RNum rh) Release 4 t = Ok D /\ transforms D dht_spec).
Proof.
  intros Hn t. split.
  - destruct (silent_run R (RNum rh) 4 n Hn) as (D & E & L & Si & _ & Pi & Po); [split; discriminate|].
    exists D. split; [exact E|]. split; [exact L|].
    set (e := map (fun k => if (k =? 2)%nat then 1%R else 0%R) (seq 0 (n + 1))). assert (Le : length e = n + 1) by (unfold e; now rewrite map_length, seq_length).
    exists (dht_spec e). split; [rewrite dht_spec_length; exact Le|].
    assert (K : forall y, nth 2 y 0%R = nth (N.to_nat 64117) y 0%R -> y <> dht_spec (dht_spec e)).
    { intros y Ey ->. rewrite dht_spec_involution in Ey.
      assert (Q : forall k, k < n + 1 -> nth k (map (fun v => (INR (length e) * v)%R) e) 0%R = (INR (length e) * if (k =? 2)%nat then 1 else 0)%R).
      { intros k Hk. rewrite (nth_indep _ 0%R (INR (length e) * 0)%R) by (rewrite map_length; lia).
        rewrite (map_nth (fun v => (INR (length e) * v)%R)). f_equal. unfold e. rewrite nth_map_seq by lia. reflexivity. }
      rewrite !Q in Ey by lia. replace (N.to_nat 64117 =? 2) with false in Ey by (symmetry; apply Nat.eqb_neq; lia).
      rewrite Nat.eqb_refl in Ey. rewrite Rmult_1_r, Rmult_0_r in Ey. apply (INR_eq _ 0) in Ey. lia. }
    split.
    + intros scr Ls. destruct (Pi (dht_spec e) scr) as (y & s & Ey & Ky); [rewrite dht_spec_length; exact Le|lia|].
      exists y, s. split; [exact Ey|]. apply K, Ky.
    + intros o Lo. destruct (Po (dht_spec e) o) as (i & y & Ey & Ky); [rewrite dht_spec_length; exact Le|exact Lo|].
      exists i, y, []. split; [exact Ey|]. apply K, Ky.
  - apply (right_64 n 67679 silent_prime); [lia|split; discriminate].
Qed.
