(** * The inverse of the primitive root on machine arithmetic *)
From Verif Require Export ProcProof.
From Coq Require Import NArith ZArith Lia.

Local Open Scope nat_scope.

(** what a loop that returns has established *)
Lemma while_result {S R : Type} (Inv : S -> Prop) (Post : R -> Prop) (f : S -> res (S + R)) s x :
  (forall s s', Inv s -> f s = Ok (inl s') -> Inv s') -> (forall s x, Inv s -> f s = Ok (inr x) -> Post x) ->
  Inv s -> while f s = Ok x -> Post x.
Proof.
  intros Hi Hp Hs. unfold while.
  assert (A : forall n s, Inv s -> (forall s', steps n f s = Ok (inl s') -> Inv s') /\ (forall x, steps n f s = Ok (inr x) -> Post x)).
  { clear s x Hs. induction n; intros s I; cbn [steps].
    - split; eauto.
    - destruct (IHn s I) as [A B]. destruct (steps n f s) as [[s'|y]| | |]; cbn [bind]; split; try discriminate.
      + apply IHn. now apply A.
      + apply IHn. now apply A.
      + intros y' [= <-]. now apply B. }
  destruct (A 64 s Hs) as [_ B]. destruct (steps 64 f s) as [[s'|y]| | |]; cbn [bind]; try discriminate.
  intros [= <-]. now apply B.
Qed.

(** ** the inverse of the primitive root on i64 *)
Section Euclid.
  Context {W : width}.
  Variable m : profile.

  Lemma i64_ok v : (-9223372036854775808 <= v < 9223372036854775808)%Z -> i64 m v = Ok v.
  Proof.
    intros Hv. unfold i64. destruct (Z.leb_spec (-9223372036854775808) v); [|lia].
    destruct (Z.ltb_spec v 9223372036854775808); [reflexivity|lia].
  Qed.
  Lemma to_i64_ok v : (0 <= v < 9223372036854775808)%Z -> to_i64 v = v.
  Proof. intros Hv. unfold to_i64. rewrite Z.mod_small by lia. lia. Qed.

  Definition opposite (B : Z) (a : Z * Z) : Prop :=
    (fst a * snd a <= 0)%Z /\ (Z.abs (fst a) <= B)%Z /\ (Z.abs (snd a) <= B)%Z.
  Lemma euclid_step_ok B q r0 r1 a : (0 <= B < 9223372036854775808)%Z -> (0 < r0)%Z -> (0 <= r1)%Z -> q = (r1 / r0)%Z ->
    opposite B a -> (r0 * Z.abs (snd a) + r1 * Z.abs (fst a) <= B)%Z ->
    euclid_step m q a = Ok (snd a - q * fst a, fst a)%Z /\ opposite B (snd a - q * fst a, fst a)%Z /\
    ((r1 - q * r0) * Z.abs (fst a) + r0 * Z.abs (snd a - q * fst a) <= B)%Z.
  Proof.
    intros HB H0 H1 Eq (Ho & Ha0 & Ha1) Hs. destruct a as [a0 a1]; cbn [fst snd] in *.
    pose proof (Z.div_mod r1 r0 ltac:(lia)) as Dv. rewrite <- Eq in Dv. pose proof (Z.mod_pos_bound r1 r0 H0) as Mb.
    assert (Hq : (0 <= q)%Z) by (subst q; apply Z.div_pos; lia).
    assert (A : (Z.abs (a1 - q * a0) = Z.abs a1 + q * Z.abs a0)%Z).
    { destruct (Z.abs_spec a0) as [[? ->]|[? ->]]; destruct (Z.abs_spec a1) as [[? ->]|[? ->]];
        destruct (Z.abs_spec (a1 - q * a0)) as [[? ->]|[? ->]]; try nia. }
    assert (Q : (q * r0 <= r1)%Z) by lia.
    pose proof (Z.abs_nonneg a0). pose proof (Z.abs_nonneg a1).
    assert (P : (0 <= q * Z.abs a0)%Z) by nia.
    assert (L : (r0 * (Z.abs a1 + q * Z.abs a0) <= B)%Z).
    { replace (r0 * (Z.abs a1 + q * Z.abs a0))%Z with (r0 * Z.abs a1 + (q * r0) * Z.abs a0)%Z by ring.
      assert ((q * r0) * Z.abs a0 <= r1 * Z.abs a0)%Z by (apply Z.mul_le_mono_nonneg_r; lia). lia. }
    assert (L1 : (Z.abs a1 + q * Z.abs a0 <= B)%Z) by nia.
    assert (P1 : (Z.abs (q * a0) = q * Z.abs a0)%Z) by (rewrite Z.abs_mul, (Z.abs_eq q) by lia; reflexivity).
    unfold euclid_step. rewrite i64_ok by lia. cbn [bind]. rewrite i64_ok by lia. cbn [bind]. split; [reflexivity|].
    split; [repeat split; cbn [fst snd]; try lia; nia|].
    rewrite A. replace ((r1 - q * r0) * Z.abs a0 + r0 * (Z.abs a1 + q * Z.abs a0))%Z
      with (r0 * Z.abs a1 + r1 * Z.abs a0)%Z by ring. exact Hs.
  Qed.
  Lemma euclid_same B : (0 <= B < 9223372036854775808)%Z -> forall fuel s t r0 r1,
    (0 <= r0 <= B)%Z -> (0 <= r1 <= B)%Z -> opposite B s -> opposite B t ->
    (r0 * Z.abs (snd s) + r1 * Z.abs (fst s) <= B)%Z -> (r0 * Z.abs (snd t) + r1 * Z.abs (fst t) <= B)%Z ->
    (exists g x y, euclid_go m fuel s t (r0, r1) = Ok (g, x, y) /\ ext_gcd_go fuel (fst s) (snd s) r0 r1 = Ok (g, x) /\
       (Z.abs x <= B)%Z) \/
    euclid_go m fuel s t (r0, r1) = Hang /\ ext_gcd_go fuel (fst s) (snd s) r0 r1 = Hang.
  Proof.
    intros HB. induction fuel; intros s t r0 r1 H0 H1 Os Ot Ss St; [right; auto|].
    cbn [euclid_go ext_gcd_go]. cbn [fst snd]. destruct (Z.eqb_spec r0 0) as [E|E].
    - left. destruct (Z.leb_spec 0 r1); [|lia]. exists r1, (snd s), (snd t). split; auto. split; auto. apply Os.
    - rewrite Z.quot_div_nonneg by lia. cbv zeta. set (q := (r1 / r0)%Z).
      assert (Q : (0 <= q <= r1)%Z).
      { split; [apply Z.div_pos; lia|]. apply Z.div_le_upper_bound; nia. }
      destruct (Z.eqb_spec q 9223372036854775808) as [Eq|_]; [lia|]. cbn [negb rassert bind].
      pose proof (Z.div_mod r1 r0 ltac:(lia)) as Dv. fold q in Dv. pose proof (Z.mod_pos_bound r1 r0 ltac:(lia)) as Mb.
      destruct (euclid_step_ok B q r0 r1 s HB ltac:(lia) ltac:(lia) eq_refl Os Ss) as (E1 & O1 & S1).
      destruct (euclid_step_ok B q r0 r1 t HB ltac:(lia) ltac:(lia) eq_refl Ot St) as (E2 & O2 & S2).
      assert (Er : euclid_step m q (r0, r1) = Ok (r1 - q * r0, r0)%Z).
      { unfold euclid_step. assert (q * r0 <= r1)%Z by lia. assert (0 <= q * r0)%Z by nia.
        rewrite i64_ok by lia. cbn [bind]. rewrite i64_ok by lia. reflexivity. }
      rewrite Er, E1, E2. cbn [bind].
      apply (IHfuel (snd s - q * fst s, fst s)%Z (snd t - q * fst t, fst t)%Z (r1 - q * r0)%Z r0); auto; lia.
  Qed.
  Lemma extended_gcd_same a b : (0 < a < b)%Z -> (b < 9223372036854775808)%Z ->
    (exists g x y, extended_gcd_run m a b = Ok (g, x, y) /\ extended_gcd a b = Ok (g, x) /\ (Z.abs x <= b)%Z) \/
    extended_gcd_run m a b = Hang /\ extended_gcd a b = Hang.
  Proof.
    intros Ha Hb. apply (euclid_same b ltac:(lia) 200 (0, 1)%Z (1, 0)%Z b a); cbn [fst snd]; try lia;
      repeat split; cbn [fst snd]; lia.
  Qed.

  Lemma root_range p r : primitive_root m p = Ok (Some r) -> (2 <= r < p)%N.
  Proof.
    unfold primitive_root. destruct (if (p =? 0)%N then _ else _) as [p1| | |]; try discriminate. cbn [bind].
    destruct (distinct_prime_factors m p1) as [fs| | |]; try discriminate. cbn [bind].
    destruct (divide_all p1 fs) as [es| | |]; try discriminate. cbn [bind].
    intros E. refine (while_result (fun r => (2 <= r)%N) (fun o => forall r, o = Some r -> (2 <= r < p)%N) _ 2%N _ _ _ _ E r eq_refl); clear E r.
    - intros s s' I. destruct (N.ltb_spec s p); [|discriminate].
      destruct (rejected m s p es) as [[|]| | |]; try discriminate. cbn [bind]. intros [= <-]. lia.
    - intros s x I. destruct (N.ltb_spec s p); [|intros [= <-]; discriminate].
      destruct (rejected m s p es) as [[|]| | |]; try discriminate. cbn [bind]. intros [= <-] r' [= <-]. lia.
    - lia.
  Qed.
  Lemma raders_roots_word p : (N.of_nat p < 9223372036854775808)%N -> (N.of_nat p < span)%N -> raders_roots_run m p = raders_roots m p.
  Proof.
    intros Hp Hw.
    unfold raders_roots_run, raders_roots. apply bind_ext1. intros ro E. destruct ro as [r|]; [|reflexivity].
    apply root_range in E. cbn [bind]. rewrite (N.mod_small r) by lia. rewrite !to_i64_ok by lia.
    destruct (extended_gcd_same (Z.of_N r) (Z.of_nat p)) as [(g & x & y & -> & -> & B)|[-> ->]]; [lia|lia| |reflexivity].
    cbn [bind]. destruct (Z.leb_spec 0 x).
    - cbn [bind]. rewrite Z.mod_small by lia. reflexivity.
    - rewrite i64_ok by lia. cbn [bind]. rewrite Z.mod_small by lia. reflexivity.
  Qed.
  Lemma raders_roots_same p : (N.of_nat p < span / 2)%N -> raders_roots_run m p = raders_roots m p.
  Proof. rewrite half_span. intros Hp. pose proof (unit_top W). pose proof (span_unit (W := W)). apply raders_roots_word; lia. Qed.
  Lemma roots_range p r ri : (N.of_nat p < 9223372036854775808)%N -> raders_roots m p = Ok (r, ri) -> 1 < p /\ r < p /\ ri <= p.
  Proof.
    intros Hp. unfold raders_roots. intros E. apply bind_inv in E. destruct E as (ro & E & H). destruct ro as [r0|]; [|discriminate].
    apply root_range in E. apply bind_inv in H. destruct H as (r1 & [= <-] & H). apply bind_inv in H. destruct H as ([g x] & E1 & H).
    assert (B : (Z.abs x <= Z.of_nat p)%Z).
    { destruct (extended_gcd_same (Z.of_N r0) (Z.of_nat p)) as [(g' & x' & y & _ & E2 & B)|[_ E2]]; [lia|lia|congruence|congruence]. }
    clear E1. injection H as <- <-. destruct (Z.leb_spec 0 x); lia.
  Qed.
End Euclid.

(** the products of Rader's indices fit *)
Definition index_fit {W : width} (p r : nat) : Prop := W = W32 -> (N.of_nat (p - 1) * N.of_nat r < 2 ^ 32)%N.
Lemma index_step_same {W : width} m p k r : index_fit p r -> k < p -> r <= p -> index_step m k r p = mul_mod m k r p.
Proof.
  intros F Hk Hr. destruct W; [|unfold index_step, usize, span, mul_mod, u64, two64; reflexivity]. specialize (F eq_refl). change (2 ^ 32)%N with 4294967296%N in F.
  assert (L : (N.of_nat k * N.of_nat r < 4294967296)%N) by nia.
  unfold index_step, mul_mod. rewrite (usize_ok (W := W32) m _ L), u64_ok by (unfold two64; lia). reflexivity.
Qed.
Lemma index_step_lt {W : width} m k r p j : 0 < p -> mul_mod m k r p = Ok j -> j < p.
Proof.
  intros Hp H. unfold mul_mod in H. apply bind_inv in H. destruct H as (v & _ & [= <-]).
  pose proof (N.mod_lt v (N.of_nat p)). lia.
Qed.
