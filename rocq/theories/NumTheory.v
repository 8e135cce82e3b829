(** * Residues modulo a prime: Fermat's theorem, and a primitive root exists *)
From Coq Require Import Arith Lia List Wf_nat ZArith Permutation.
Import ListNotations.

Definition std_prime (p : nat) : Prop :=
  1 < p /\ forall d, Nat.divide d p -> d = 1 \/ d = p.

Lemma std_prime_ge2 p : std_prime p -> 2 <= p.
Proof. intros [H _]. lia. Qed.

Lemma std_prime_mul p a b : std_prime p -> (a * b) mod p = 0 -> a mod p = 0 \/ b mod p = 0.
Proof.
  intros Hp H. pose proof (std_prime_ge2 p Hp).
  apply Nat.mod_divide in H; [|lia].
  assert (Hg : Nat.gcd p a = 1 \/ Nat.gcd p a = p) by (apply Hp, Nat.gcd_divide_l).
  destruct Hg as [Hg|Hg].
  - right. apply Nat.mod_divide; [lia|]. now apply (Nat.gauss p a b).
  - left. apply Nat.mod_divide; [lia|]. rewrite <- Hg at 1. apply Nat.gcd_divide_r.
Qed.

Lemma pow_mod_nz p r j : std_prime p -> r mod p <> 0 -> r ^ j mod p <> 0.
Proof.
  intros Hp Hr. pose proof (std_prime_ge2 p Hp). induction j.
  - simpl. rewrite Nat.mod_small; lia.
  - rewrite Nat.pow_succ_r'. intros E. apply std_prime_mul in E; tauto.
Qed.

Lemma mod_cancel p a b c : std_prime p -> c mod p <> 0 ->
  (c * a) mod p = (c * b) mod p -> a mod p = b mod p.
Proof.
  intros Hp Hc. pose proof (std_prime_ge2 p Hp).
  assert (W : forall x y, x <= y -> (c * x) mod p = (c * y) mod p -> x mod p = y mod p).
  { intros x y Hxy E. replace y with (x + (y - x)) in * by lia. set (z := y - x) in *.
    assert (Hz : (c * z) mod p = 0).
    { rewrite Nat.mul_add_distr_l in E.
      pose proof (Nat.div_mod (c * x) p ltac:(lia)). pose proof (Nat.div_mod (c * x + c * z) p ltac:(lia)).
      assert (c * z = p * ((c * x + c * z) / p - (c * x) / p)).
      { rewrite Nat.mul_sub_distr_l. lia. }
      rewrite H2, Nat.mul_comm. apply Nat.mod_mul. lia. }
    apply std_prime_mul in Hz as [Hz|Hz]; [tauto| |auto].
    rewrite Nat.add_mod, Hz, Nat.add_0_r, Nat.mod_mod; lia. }
  intros E. destruct (Nat.le_ge_cases a b); [auto|symmetry; auto].
Qed.

Lemma pow_mod_l p a k : p <> 0 -> (a mod p) ^ k mod p = a ^ k mod p.
Proof.
  intros. induction k; auto.
  rewrite !Nat.pow_succ_r', Nat.mul_mod_idemp_l by auto.
  rewrite <- Nat.mul_mod_idemp_r, IHk, Nat.mul_mod_idemp_r; auto.
Qed.

(** exponents killing r are closed under gcd *)
Lemma pow_gcd p r : std_prime p -> r mod p <> 0 -> forall a b,
  r ^ a mod p = 1 -> r ^ b mod p = 1 -> r ^ (Nat.gcd a b) mod p = 1.
Proof.
  intros Hp Hr a. pose proof (std_prime_ge2 p Hp).
  induction a as [a IH] using (well_founded_induction lt_wf). intros b Ha Hb.
  destruct (Nat.eq_dec a 0) as [->|Ha0]; [simpl; auto|].
  rewrite <- Nat.gcd_mod by auto. rewrite Nat.gcd_comm. apply Nat.mod_upper_bound with (a := b) in Ha0 as Hlt.
  rewrite Nat.gcd_comm. apply IH; auto.
  rewrite (Nat.div_mod b a) in Hb by auto. rewrite Nat.pow_add_r, Nat.pow_mul_r in Hb.
  rewrite <- Nat.mul_mod_idemp_l, <- pow_mod_l, Ha, Nat.pow_1_l in Hb by lia.
  rewrite (Nat.mod_small 1 p), Nat.mul_1_l in Hb by lia. auto.
Qed.

Lemma divide_dec d n : {Nat.divide d n} + {~ Nat.divide d n}.
Proof.
  destruct d.
  - destruct n; [left; now exists 0|right]. intros [k Hk]. lia.
  - destruct (Nat.eq_dec (n mod S d) 0) as [E|E].
    + left. apply Nat.mod_divide; [lia|auto].
    + right. intros D. apply E. apply Nat.mod_divide; [lia|auto].
Qed.

(** every number above 1 has a prime divisor *)
Lemma prime_divisor n : 1 < n -> exists q, std_prime q /\ Nat.divide q n.
Proof.
  induction n as [n IH] using (well_founded_induction lt_wf). intros Hn.
  destruct (Exists_dec (fun d => Nat.divide d n) (seq 2 (n - 2)) (fun d => divide_dec d n)) as [F|F].
  - apply Exists_exists in F as (d & Hd & D). apply in_seq in Hd.
    destruct (IH d) as (q & Hq & Dq); [lia|lia|]. exists q. split; auto. now apply Nat.divide_trans with d.
  - exists n. split; [|apply Nat.divide_refl]. split; [lia|]. intros d D.
    pose proof (Nat.divide_pos_le d n ltac:(lia) D).
    assert (d <> 0) by (intros ->; destruct D; lia).
    destruct (Nat.eq_dec d 1); auto. destruct (Nat.eq_dec d n); auto. exfalso. apply F.
    apply Exists_exists. exists d. split; auto. apply in_seq. lia.
Qed.

(** ** Fermat *)
Definition nprod (l : list nat) : nat := fold_right Nat.mul 1 l.
Lemma nprod_perm l l' : Permutation l l' -> nprod l = nprod l'.
Proof. induction 1; simpl; auto; lia. Qed.
Lemma nprod_scale p a l : p <> 0 -> nprod (map (fun i => (a * i) mod p) l) mod p = (a ^ length l * nprod l) mod p.
Proof.
  intros Hp. induction l as [|i l IH]; auto. cbn [map nprod fold_right length].
  fold (nprod (map (fun i => (a * i) mod p) l)). fold (nprod l).
  rewrite Nat.mul_mod_idemp_l, <- Nat.mul_mod_idemp_r, IH, Nat.mul_mod_idemp_r by auto.
  f_equal. simpl. ring.
Qed.
Lemma nprod_nz p l : std_prime p -> (forall i, In i l -> i mod p <> 0) -> nprod l mod p <> 0.
Proof.
  intros Hp. pose proof (std_prime_ge2 p Hp). induction l as [|i l IH]; intros Hl.
  - simpl. rewrite Nat.mod_small; lia.
  - cbn. intros E. apply std_prime_mul in E as [E|E]; auto; [now apply (Hl i (or_introl eq_refl))|].
    revert E. apply IH. intros. apply Hl. now right.
Qed.
Lemma fermat_std p a : std_prime p -> a mod p <> 0 -> a ^ (p - 1) mod p = 1.
Proof.
  intros Hp Ha. pose proof (std_prime_ge2 p Hp).
  assert (Hs : forall i, In i (seq 1 (p - 1)) -> i mod p <> 0).
  { intros i Hi. apply in_seq in Hi. rewrite Nat.mod_small; lia. }
  assert (Pm : Permutation (map (fun i => (a * i) mod p) (seq 1 (p - 1))) (seq 1 (p - 1))).
  { apply NoDup_Permutation_bis.
    - clear Hs. assert (ND : NoDup (seq 1 (p - 1))) by apply seq_NoDup.
      assert (B : forall i, In i (seq 1 (p - 1)) -> i < p) by (intros i Hi; apply in_seq in Hi; lia).
      revert ND B. generalize (seq 1 (p - 1)). induction 1 as [|i l Hi ND IH]; intros B; cbn [map]; constructor.
      + rewrite in_map_iff. intros (j & E & Hj). apply mod_cancel in E; auto.
        rewrite !Nat.mod_small in E by (apply B; simpl; auto). congruence.
      + apply IH. intros. apply B. now right.
    - rewrite map_length. auto.
    - intros x Hx. apply in_map_iff in Hx as (i & <- & Hi). apply in_seq.
      pose proof (Nat.mod_upper_bound (a * i) p ltac:(lia)).
      assert ((a * i) mod p <> 0); [|lia]. intros E. apply std_prime_mul in E as [E|E]; auto. now apply (Hs i). }
  pose proof (nprod_scale p a (seq 1 (p - 1)) ltac:(lia)) as E.
  rewrite (nprod_perm _ _ Pm), seq_length in E.
  transitivity (1 mod p); [|apply Nat.mod_small; lia]. apply (mod_cancel p _ _ (nprod (seq 1 (p - 1)))); auto.
  - now apply nprod_nz.
  - now rewrite Nat.mul_1_r, E, Nat.mul_comm.
Qed.

(** ** a monic polynomial has at most as many roots as its degree *)
Section Roots.
  Local Open Scope Z_scope.
  Definition horner (a : Z) (l : list Z) (x : Z) : Z := fold_left (fun a c => a * x + c) l a.
  Fixpoint scan (b : Z) (l : list Z) (r : Z) : list Z :=
    match l with [] => [] | c :: t => b :: scan (b * r + c) t r end.
  Lemma scan_length l r : forall b, length (scan b l r) = length l.
  Proof. induction l; intros; simpl; auto. Qed.
  Lemma horner_scan x r l : forall a b q, a - b = (x - r) * q ->
    horner a l x - horner b l r = (x - r) * horner q (scan b l r) x.
  Proof.
    induction l as [|c l IH]; intros a b q E; [exact E|]. cbn [scan horner fold_left].
    apply IH. replace a with (b + (x - r) * q) by lia. ring.
  Qed.
  Lemma roots_le (p : Z) : (1 < p) -> (forall a b, (p | a * b) -> (p | a) \/ (p | b)) ->
    forall n l rs, length l = n -> NoDup rs -> (forall r, In r rs -> 0 <= r < p) ->
    (forall r, In r rs -> (p | horner 1 l r)) -> (length rs <= n)%nat.
  Proof.
    intros Hp Pm. induction n as [|n IH]; intros l rs Hl ND B R.
    - destruct rs as [|r rs]; auto. exfalso. destruct l; [|discriminate].
      specialize (R r (or_introl eq_refl)). cbn in R. apply Z.divide_1_r_nonneg in R; lia.
    - destruct rs as [|r rs]; [simpl; lia|]. destruct l as [|c l]; [discriminate|].
      inversion ND as [|? ? Nr ND']; subst. simpl. apply le_n_S.
      apply (IH (scan (r + c) l r) rs); auto.
      + rewrite scan_length. now inversion Hl.
      + intros. apply B. now right.
      + intros x Hx. pose proof (R r (or_introl eq_refl)) as Rr. pose proof (R x (or_intror Hx)) as Rx.
        cbn [horner fold_left] in Rr, Rx. rewrite !Z.mul_1_l in *.
        fold (horner (r + c) l r) in Rr. fold (horner (x + c) l x) in Rx.
        pose proof (horner_scan x r l (x + c) (r + c) 1 ltac:(lia)) as E.
        assert (D : (p | (x - r) * horner 1 (scan (r + c) l r) x)) by (rewrite <- E; now apply Z.divide_sub_r).
        apply Pm in D as [D|D]; auto. exfalso.
        pose proof (B r (or_introl eq_refl)). pose proof (B x (or_intror Hx)).
        destruct D as [k Hk]. assert (k = 0) by nia. assert (x = r) by nia. subst x. contradiction.
  Qed.
  Lemma horner_pow x n : forall a, horner a (repeat 0 n ++ [-1]) x = a * x ^ (Z.of_nat (S n)) - 1.
  Proof.
    induction n as [|n IH]; intros a.
    - cbn. rewrite Z.mul_1_r. ring.
    - rewrite Nat2Z.inj_succ, Z.pow_succ_r by lia. cbn [repeat app horner fold_left].
      fold (horner (a * x + 0) (repeat 0 n ++ [-1]) x). rewrite IH. ring.
  Qed.
End Roots.

Lemma zprime_mul p : std_prime p -> forall a b : Z, (Z.of_nat p | a * b)%Z -> (Z.of_nat p | a)%Z \/ (Z.of_nat p | b)%Z.
Proof.
  intros Hp. pose proof (std_prime_ge2 p Hp).
  assert (C : forall a : Z, (Z.of_nat p | a)%Z <-> Z.to_nat (a mod Z.of_nat p) mod p = 0).
  { intros a. rewrite Nat.mod_small by (pose proof (Z.mod_pos_bound a (Z.of_nat p) ltac:(lia)); lia).
    pose proof (Z.mod_pos_bound a (Z.of_nat p) ltac:(lia)).
    split; intros D.
    - apply Z.mod_divide in D; lia.
    - apply Z.mod_divide; lia. }
  intros a b D. apply C in D. rewrite !C. apply std_prime_mul; auto. rewrite <- D.
  rewrite Z.mul_mod by lia.
  pose proof (Z.mod_pos_bound a (Z.of_nat p) ltac:(lia)). pose proof (Z.mod_pos_bound b (Z.of_nat p) ltac:(lia)).
  rewrite <- (Z2Nat.id (a mod Z.of_nat p)) at 2 by lia. rewrite <- (Z2Nat.id (b mod Z.of_nat p)) at 2 by lia.
  rewrite <- Nat2Z.inj_mul, <- Nat2Z.inj_mod, Nat2Z.id. now rewrite Nat.mod_mod by lia.
Qed.

Lemma pow_not_all_one p k : std_prime p -> 0 < k < p - 1 -> exists a, 0 < a < p /\ a ^ k mod p <> 1.
Proof.
  intros Hp Hk. pose proof (std_prime_ge2 p Hp).
  destruct (Exists_dec (fun a => a ^ k mod p <> 1) (seq 1 (p - 1))) as [E|E].
  { intros a. destruct (Nat.eq_dec (a ^ k mod p) 1); [right|left]; tauto. }
  - apply Exists_exists in E as (a & Ha & E). apply in_seq in Ha. exists a. split; [lia|auto].
  - exfalso. destruct k as [|n]; [lia|].
    assert (L : length (map Z.of_nat (seq 1 (p - 1))) <= S n).
    { apply (roots_le (Z.of_nat p) ltac:(lia) (zprime_mul p Hp) (S n) (repeat 0%Z n ++ [-1]%Z)).
      - rewrite app_length, repeat_length. simpl. lia.
      - apply FinFun.Injective_map_NoDup; [intros x y; lia|apply seq_NoDup].
      - intros r Hr. apply in_map_iff in Hr as (a & <- & Ha). apply in_seq in Ha. lia.
      - intros r Hr. apply in_map_iff in Hr as (a & <- & Ha). rewrite horner_pow, Z.mul_1_l.
        assert (A1 : a ^ S n mod p = 1).
        { destruct (Nat.eq_dec (a ^ S n mod p) 1) as [|N]; auto. exfalso. apply E. apply Exists_exists. eauto. }
        rewrite <- Nat2Z.inj_pow. pose proof (Nat.div_mod (a ^ S n) p ltac:(lia)) as D. rewrite A1 in D.
        exists (Z.of_nat (a ^ S n / p)). rewrite D at 1. lia. }
    rewrite map_length, seq_length in L. lia.
Qed.

(** ** exact orders *)
Definition exact_order (p g n : nat) : Prop :=
  0 < n /\ g mod p <> 0 /\ g ^ n mod p = 1 /\ forall k, 0 < k < n -> g ^ k mod p <> 1.

Lemma exact_order_divides p g n k : std_prime p -> exact_order p g n -> g ^ k mod p = 1 -> Nat.divide n k.
Proof.
  intros Hp (Hn & Hg & E & M) Ek. pose proof (pow_gcd p g Hp Hg n k E Ek) as G.
  pose proof (Nat.gcd_divide_l n k) as D. pose proof (Nat.divide_pos_le _ _ Hn D) as L.
  assert (Nat.gcd n k <> 0) by (intros Z; apply Nat.gcd_eq_0_l in Z; lia).
  destruct (Nat.eq_dec (Nat.gcd n k) n) as [En|]; [rewrite <- En; apply Nat.gcd_divide_r|].
  exfalso. apply (M (Nat.gcd n k)); auto. lia.
Qed.
Lemma exact_order_pow p g n k : std_prime p -> exact_order p g n -> Nat.divide n k -> g ^ k mod p = 1.
Proof.
  intros Hp (Hn & Hg & E & _) [c ->]. pose proof (std_prime_ge2 p Hp).
  rewrite Nat.mul_comm, Nat.pow_mul_r, <- pow_mod_l, E, Nat.pow_1_l by lia. apply Nat.mod_small. lia.
Qed.
Lemma exact_order_mul p a b m n : std_prime p -> exact_order p a m -> exact_order p b n -> Nat.gcd m n = 1 ->
  exact_order p (a * b) (m * n).
Proof.
  intros Hp A B G. pose proof (std_prime_ge2 p Hp). pose proof A as (Hm & Ha & _). pose proof B as (Hn & Hb & _).
  split; [nia|]. split; [intros E; apply std_prime_mul in E; tauto|]. split.
  - rewrite Nat.pow_mul_l, <- Nat.mul_mod_idemp_l, <- Nat.mul_mod_idemp_r by lia.
    rewrite (exact_order_pow p a m), (exact_order_pow p b n); auto; [apply Nat.mod_small; lia|now exists m|].
    exists n. lia.
  - intros k Hk E.
    assert (D : forall x y u v, exact_order p x u -> exact_order p y v -> (x * y) ^ k mod p = 1 -> Nat.gcd v u = 1 -> Nat.divide v k).
    { intros x y u v X Y Exy Guv. apply (Nat.gauss v u k); auto. apply (exact_order_divides p y); auto.
      assert (F : (x * y) ^ (u * k) mod p = 1).
      { rewrite (Nat.mul_comm u k), Nat.pow_mul_r, <- pow_mod_l, Exy, Nat.pow_1_l by lia. apply Nat.mod_small. lia. }
      rewrite Nat.pow_mul_l, <- Nat.mul_mod_idemp_l in F by lia.
      rewrite (exact_order_pow p x u (u * k)) in F; auto; [|exists k; lia]. now rewrite Nat.mul_1_l in F. }
    assert (D1 : Nat.divide n k) by (apply (D a b m n); auto; now rewrite Nat.gcd_comm).
    assert (D2 : Nat.divide m k) by (apply (D b a n m); auto; now rewrite (Nat.mul_comm b a)).
    destruct D2 as [c Hc]. assert (D3 : Nat.divide n c) by (apply (Nat.gauss n m c); [rewrite Nat.mul_comm, <- Hc; auto|now rewrite Nat.gcd_comm]).
    destruct D3 as [e He]. subst. assert (e = 0) by nia. subst e. lia.
Qed.

Lemma coprime_pow c q e : Nat.gcd c q = 1 -> Nat.divide c (q ^ e) -> c = 1.
Proof.
  intros G. induction e as [|e IH]; intros D.
  - now apply Nat.divide_1_r.
  - apply IH. apply (Nat.gauss c q); auto.
Qed.
Lemma divides_prime_power q e g : std_prime q -> Nat.divide g (q ^ S e) -> g = q ^ S e \/ Nat.divide g (q ^ e).
Proof.
  intros Hq [c Hc]. pose proof (std_prime_ge2 q Hq).
  assert (Gc : Nat.gcd c q = 1 \/ Nat.gcd c q = q) by (apply Hq, Nat.gcd_divide_r).
  destruct Gc as [Gc|Gc].
  - left. assert (c = 1) by (apply (coprime_pow c q (S e)); auto; exists g; lia). subst c. lia.
  - right. pose proof (Nat.gcd_divide_l c q) as D. rewrite Gc in D. destruct D as [c' ->].
    exists c'. rewrite Nat.pow_succ_r' in Hc. nia.
Qed.

Lemma order_prime_power p q e : std_prime p -> std_prime q -> Nat.divide (q ^ S e) (p - 1) ->
  exists g, exact_order p g (q ^ S e).
Proof.
  intros Hp Hq [c Hc]. pose proof (std_prime_ge2 p Hp). pose proof (std_prime_ge2 q Hq).
  assert (Q0 : 0 < q ^ e) by (apply Nat.neq_0_lt_0, Nat.pow_nonzero; lia).
  rewrite Nat.pow_succ_r' in Hc.
  assert (C0 : 0 < c) by nia.
  destruct (pow_not_all_one p (c * q ^ e) Hp) as (a & Ha & E); [nia|].
  assert (An : a mod p <> 0) by (rewrite Nat.mod_small; lia).
  exists (a ^ c). assert (Bn : a ^ c mod p <> 0) by now apply pow_mod_nz.
  assert (B1 : (a ^ c) ^ (q ^ S e) mod p = 1).
  { rewrite <- Nat.pow_mul_r. rewrite Nat.pow_succ_r', <- Hc. now apply fermat_std. }
  split; [rewrite Nat.pow_succ_r'; nia|]. split; auto. split; auto.
  intros k Hk Ek. pose proof (pow_gcd p (a ^ c) Hp Bn k _ Ek B1) as G.
  set (g := Nat.gcd k (q ^ S e)) in *.
  assert (Dg : Nat.divide g (q ^ S e)) by apply Nat.gcd_divide_r.
  assert (Dk : Nat.divide g k) by apply Nat.gcd_divide_l.
  apply (Nat.divide_pos_le _ _ (proj1 Hk)) in Dk.
  destruct (divides_prime_power q e g Hq Dg) as [Z|[c' D]]; [lia|].
  apply E. rewrite Nat.pow_mul_r, D, (Nat.mul_comm c'), Nat.pow_mul_r, <- pow_mod_l, G, Nat.pow_1_l by lia.
  apply Nat.mod_small. lia.
Qed.

Lemma prime_power_part q n : std_prime q -> 0 < n -> exists e m, n = q ^ e * m /\ ~ Nat.divide q m.
Proof.
  intros Hq. pose proof (std_prime_ge2 q Hq).
  induction n as [n IH] using (well_founded_induction lt_wf). intros Hn.
  destruct (divide_dec q n) as [[c Hc]|N].
  - destruct (IH c) as (e & m & E & Nm); [nia|nia|]. exists (S e), m. split; auto. rewrite Nat.pow_succ_r'. nia.
  - exists 0, n. split; auto. simpl. lia.
Qed.

Lemma order_exists p n : std_prime p -> 0 < n -> Nat.divide n (p - 1) -> exists g, exact_order p g n.
Proof.
  intros Hp. pose proof (std_prime_ge2 p Hp).
  induction n as [n IH] using (well_founded_induction lt_wf). intros Hn D.
  destruct (Nat.eq_dec n 1) as [->|].
  - exists 1. split; [lia|]. split; [rewrite Nat.mod_small; lia|]. split; [simpl; apply Nat.mod_small; lia|]. lia.
  - destruct (prime_divisor n ltac:(lia)) as (q & Hq & Dq). pose proof (std_prime_ge2 q Hq).
    destruct (prime_power_part q n Hq Hn) as (e & m & E & Nm).
    destruct e as [|e]; [simpl in E; rewrite Nat.add_0_r in E; subst; contradiction|].
    assert (M0 : 0 < m) by nia.
    assert (Q1 : 1 < q ^ S e) by (apply Nat.pow_gt_1; lia).
    destruct (IH m) as [h Hh]; [nia|auto|apply Nat.divide_trans with n; auto; now exists (q ^ S e)|].
    destruct (order_prime_power p q e Hp Hq) as [b Hb]; [apply Nat.divide_trans with n; auto; exists m; lia|].
    exists (b * h). rewrite E. apply exact_order_mul; auto.
    assert (Gq : Nat.gcd m q = 1).
    { assert (G : Nat.gcd m q = 1 \/ Nat.gcd m q = q) by (apply Hq, Nat.gcd_divide_r).
      destruct G as [G|G]; auto. exfalso. apply Nm. rewrite <- G. apply Nat.gcd_divide_l. }
    apply (coprime_pow _ q (S e)); [|apply Nat.gcd_divide_l].
    assert (G : Nat.gcd (Nat.gcd (q ^ S e) m) q = 1 \/ Nat.gcd (Nat.gcd (q ^ S e) m) q = q) by (apply Hq, Nat.gcd_divide_r).
    destruct G as [G|G]; auto. exfalso. apply Nm. rewrite <- G.
    apply Nat.divide_trans with (Nat.gcd (q ^ S e) m); [apply Nat.gcd_divide_l|apply Nat.gcd_divide_r].
Qed.

Lemma prim_root_std p : std_prime p ->
  exists g, 1 <= g /\ g < p /\ forall k, 0 < k -> k < p - 1 -> g ^ k mod p <> 1.
Proof.
  intros Hp. pose proof (std_prime_ge2 p Hp).
  destruct (order_exists p (p - 1) Hp ltac:(lia) (Nat.divide_refl _)) as (g & _ & Hg & _ & M).
  exists (g mod p). pose proof (Nat.mod_upper_bound g p ltac:(lia)). split; [lia|]. split; auto.
  intros k K1 K2. rewrite pow_mod_l by lia. apply M. lia.
Qed.
