(** * math_utils: modular power, factorisation and root search *)
From Verif Require Export NumSpec.
From Verif Require Import NumTheory MathUtils F32Sqrt Residues RadersProof Raders.
From Coq Require Import Arith NArith ZArith Lia List Wf_nat.
Import ListNotations.
Local Open Scope N_scope.

(** ** [while] loops with a decreasing measure *)
Lemma steps_inv {S R : Type} (Inv : S -> Prop) (Post : R -> Prop) (mu : S -> N) (f : S -> res (S + R)) :
  (forall s, Inv s -> (exists s', f s = Ok (inl s') /\ Inv s' /\ mu s' < mu s) \/
                      (exists x, f s = Ok (inr x) /\ Post x)) ->
  forall n s, Inv s ->
    (exists s', steps n f s = Ok (inl s') /\ Inv s' /\ mu s' + 2 ^ N.of_nat n <= mu s) \/
    (exists x, steps n f s = Ok (inr x) /\ Post x).
Proof.
  intros Hf. induction n; intros s Hs.
  - simpl. destruct (Hf s Hs) as [(s' & E & I & L)|(x & E & P)]; [left|right]; eauto.
    exists s'. repeat split; auto. lia.
  - cbn [steps]. destruct (IHn s Hs) as [(s' & E & I & L)|(x & E & P)]; rewrite E; cbn [bind].
    + destruct (IHn s' I) as [(s'' & E' & I' & L')|(x & E' & P)]; rewrite E'; [left|right]; eauto.
      exists s''. repeat split; auto. rewrite Nat2N.inj_succ, N.pow_succ_r'. lia.
    + right. eauto.
Qed.

Lemma while_inv {S R : Type} (Inv : S -> Prop) (Post : R -> Prop) (mu : S -> N) (f : S -> res (S + R)) s :
  (forall s, Inv s -> (exists s', f s = Ok (inl s') /\ Inv s' /\ mu s' < mu s) \/
                      (exists x, f s = Ok (inr x) /\ Post x)) ->
  Inv s -> mu s < two64 -> exists x, while f s = Ok x /\ Post x.
Proof.
  intros Hf Hs Hm. unfold while.
  destruct (steps_inv Inv Post mu f Hf 64 s Hs) as [(s' & E & I & L)|(x & E & P)].
  - exfalso. change (2 ^ N.of_nat 64) with two64 in L. lia.
  - rewrite E. cbn [bind]. eauto.
Qed.

Lemma u64_ok m v : v < two64 -> u64 m v = Ok v.
Proof. intros H. unfold u64. apply N.ltb_lt in H. now rewrite H. Qed.

Lemma u64_rem_ok a b : b <> 0 -> u64_rem a b = Ok (a mod b).
Proof. intros H. unfold u64_rem. apply N.eqb_neq in H. now rewrite H. Qed.
Lemma u64_div_ok a b : b <> 0 -> u64_div a b = Ok (a / b).
Proof. intros H. unfold u64_div. apply N.eqb_neq in H. now rewrite H. Qed.

(** ** modular_exponent *)
Lemma modular_exponent_ok m base e p :
  base < p -> p <= 2 ^ 32 -> e < two64 -> 2 <= p \/ 0 < e ->
  modular_exponent m base e p = Ok (base ^ e mod p).
Proof.
  intros Hb Hp He Hpe. unfold modular_exponent.
  match goal with |- while ?f ?s = _ =>
    destruct (while_inv
      (fun '(b, x, r) => b < p /\ x <= e /\ (r < p \/ r = 1 /\ 0 < x) /\ (r * b ^ x) mod p = base ^ e mod p)
      (fun v => v = base ^ e mod p) (fun '(b, x, r) => x) f s) as (v & E & P) end.
  - intros [[b x] r] (Hb' & Hx & Hr & Hi). destruct (N.ltb_spec 0 x) as [Lx|Lx].
    + left.
      assert (P32 : (2 ^ 32) * (2 ^ 32) = two64) by reflexivity.
      assert (Hrb : r * b < two64) by (destruct Hr as [|[-> _]]; nia).
      assert (Hbb : b * b < two64) by nia.
      assert (Hx2 : x = 2 * (x / 2) + (if N.odd x then 1 else 0)).
      { pose proof (N.div2_odd x) as D. rewrite N.div2_div in D. destruct (N.odd x); exact D. }
      assert (Hinv' : forall r', r' < p \/ r' = 1 /\ 0 < x / 2 -> (r' * (b * b mod p) ^ (x / 2)) mod p = base ^ e mod p ->
        x / 2 < x -> exists s', Ok (inl (b * b mod p, x / 2, r')) = Ok (A:=_+N) (inl s') /\
          (let '(b, x0, r0) := s' in
            b < p /\ x0 <= e /\ (r0 < p \/ r0 = 1 /\ 0 < x0) /\ (r0 * b ^ x0) mod p = base ^ e mod p) /\
          (let '(_, x0, _) := s' in x0) < x).
      { intros r' H1 H2 H3. eexists. split; [reflexivity|]. cbv beta iota. repeat split; auto.
        - apply N.mod_lt. lia.
        - lia. }
      assert (Hpow : forall c, (c * (b * b mod p) ^ (x / 2)) mod p = (c * (b * b) ^ (x / 2)) mod p).
      { intros c. rewrite <- N.mul_mod_idemp_r by lia.
        replace ((b * b mod p) ^ (x / 2) mod p) with ((b * b) ^ (x / 2) mod p).
        - now rewrite N.mul_mod_idemp_r by lia.
        - generalize (x / 2). intros k. induction k using N.peano_ind; auto.
          rewrite !N.pow_succ_r'. rewrite N.mul_mod_idemp_l by lia.
          rewrite <- N.mul_mod_idemp_r, IHk, N.mul_mod_idemp_r by lia. reflexivity. }
      assert (Hsq : (b * b) ^ (x / 2) = b ^ (2 * (x / 2))).
      { now rewrite N.pow_mul_r, N.pow_2_r. }
      assert (x / 2 < x) by (apply N.div_lt; lia).
      destruct (N.odd x) eqn:Ox.
      * rewrite (u64_ok m (r * b)) by auto. cbn [bind]. rewrite u64_rem_ok by lia. cbn [bind].
        rewrite (u64_ok m (b * b)) by auto. cbn [bind]. rewrite u64_rem_ok by lia. cbn [bind].
        apply Hinv'; auto; [left; apply N.mod_lt; lia|].
        rewrite N.mul_mod_idemp_l by lia. rewrite Hpow, <- Hi, Hsq. rewrite Hx2 at 2.
        rewrite N.pow_add_r, N.pow_1_r. f_equal. lia.
      * cbn [bind]. rewrite (u64_ok m (b * b)) by auto. cbn [bind]. rewrite u64_rem_ok by lia. cbn [bind].
        rewrite N.add_0_r in Hx2.
        assert (Hev : (r * (b * b mod p) ^ (x / 2)) mod p = base ^ e mod p).
        { rewrite Hpow, Hsq, <- Hx2. exact Hi. }
        apply Hinv'; auto. destruct Hr as [|[-> Hxe]]; auto. right. split; auto. lia.
    + right. eexists. split; [reflexivity|]. assert (x = 0) by lia. subst x.
      rewrite N.pow_0_r, N.mul_1_r in Hi. rewrite <- Hi. symmetry. apply N.mod_small.
      destruct Hr as [|[-> ?]]; auto. lia.
  - cbv beta iota. repeat split; auto; try lia. now rewrite N.mul_1_l.
  - cbv beta iota. auto.
  - rewrite E. now subst.
Qed.

(** ** primes in N *)
Lemma ndivide_nat a b : (a | b) <-> Nat.divide (N.to_nat a) (N.to_nat b).
Proof.
  split; intros [k Hk].
  - exists (N.to_nat k). subst. now rewrite N2Nat.inj_mul.
  - exists (N.of_nat k). apply N2Nat.inj. now rewrite N2Nat.inj_mul, Nat2N.id.
Qed.

Lemma nprime_nat q : nprime q <-> std_prime (N.to_nat q).
Proof.
  split; intros [H1 H2]; split; try lia; intros d D.
  - destruct (H2 (N.of_nat d)); [|lia|lia]. apply ndivide_nat. now rewrite Nat2N.id.
  - destruct (H2 (N.to_nat d)); [|lia|lia]. now apply ndivide_nat.
Qed.

Lemma nprime_mul q a b : nprime q -> (q | a * b) -> (q | a) \/ (q | b).
Proof.
  intros Hq D. apply nprime_nat in Hq as Hq'. apply ndivide_nat in D. rewrite N2Nat.inj_mul in D.
  pose proof (std_prime_ge2 _ Hq').
  rewrite !ndivide_nat. rewrite <- !Nat.mod_divide in * by lia. now apply std_prime_mul.
Qed.

Lemma nprime_pow q a k : nprime q -> (q | a ^ k) -> (q | a).
Proof.
  intros Hq. induction k using N.peano_ind.
  - rewrite N.pow_0_r. intros D. destruct Hq as [H1 _]. apply N.divide_1_r in D. lia.
  - rewrite N.pow_succ_r'. intros D. apply nprime_mul in D as [|]; auto.
Qed.

Lemma nprime_divisor n : 1 < n -> exists q, nprime q /\ (q | n).
Proof.
  intros H. destruct (prime_divisor (N.to_nat n)) as (q & Hq & D); [lia|].
  exists (N.of_nat q). split; [apply nprime_nat|apply ndivide_nat]; now rewrite Nat2N.id.
Qed.

(** ** the inner stripping loop *)
Lemma strip_ok d n : 2 <= d -> 1 <= n -> n < two64 ->
  exists n' k, strip d n = Ok n' /\ n = d ^ k * n' /\ ~ (d | n') /\ 1 <= n' <= n.
Proof.
  intros Hd Hn Hn2. unfold strip.
  match goal with |- context [while ?f ?s] =>
    destruct (while_inv (fun x => 1 <= x /\ exists k, n = d ^ k * x)
      (fun x => 1 <= x /\ ~ (d | x) /\ exists k, n = d ^ k * x) (fun x => x) f s) as (v & E & P1 & P2 & k & P3) end.
  - intros x (Hx & k & Hk). rewrite u64_rem_ok by lia. cbn [bind].
    destruct (N.eqb_spec (x mod d) 0) as [E|E].
    + left. rewrite u64_div_ok by lia. cbn [bind]. eexists. split; [reflexivity|].
      apply N.mod_divide in E as D; [|lia]. destruct D as [c Hc].
      assert (Hdv : x / d = c) by (rewrite Hc; apply N.div_mul; lia).
      rewrite Hdv. split; [|nia]. split; [nia|]. exists (N.succ k). rewrite N.pow_succ_r'. nia.
    + right. eexists. split; [reflexivity|]. repeat split; eauto.
      intros D. apply E. apply N.mod_divide; [lia|auto].
  - split; auto. exists 0. rewrite N.pow_0_r. lia.
  - auto.
  - exists v, k. repeat split; auto. assert (1 <= d ^ k) by (pose proof (N.pow_nonzero d k); lia). nia.
Qed.

(** ** the trial division *)
Section Trial.
  Variables (m : profile) (n0 : N).
  Hypothesis n0_lt : n0 < two64.

  (** what the loop maintains *)
  Definition trial_inv (n divisor : N) (result : list N) : Prop :=
    1 <= n <= n0 /\ 3 <= divisor <= 2 ^ 32 + 2 /\ N.odd divisor = true /\
    (forall q, nprime q -> q < divisor -> ~ (q | n)) /\
    (forall q, nprime q -> ((q | n0) <-> In q result \/ (q | n))) /\
    NoDup result /\ (forall q, In q result -> nprime q /\ q < divisor).

  Lemma no_small_prime n divisor q :
    N.odd divisor = true -> 3 <= divisor -> (forall q, nprime q -> q < divisor -> ~ (q | n)) ->
    ~ (divisor | n) -> nprime q -> q < divisor + 2 -> ~ (q | n).
  Proof.
    intros Ho H3 Hs Hd Hq Hlt D.
    destruct (N.lt_ge_cases q divisor) as [L|L]; [apply (Hs q); auto|].
    destruct (N.eq_dec q divisor) as [->|]; auto.
    assert (q = divisor + 1) by lia. subst q.
    destruct Hq as [H1 H2]. destruct (H2 2); [|lia|lia].
    apply N.odd_spec in Ho as [c Hc]. exists (c + 1). lia.
  Qed.

  Lemma trial_step_ok n divisor result :
    trial_inv n divisor result ->
    (divisor < sqrt_limit n /\ exists n' result',
       trial_step m (n, divisor, sqrt_limit n, result) = Ok (inl (n', divisor + 2, sqrt_limit n', result')) /\
       trial_inv n' (divisor + 2) result') \/
    (sqrt_limit n <= divisor /\ trial_step m (n, divisor, sqrt_limit n, result) = Ok (inr (n, result))).
  Proof.
    intros (Hn & Hd & Ho & Hs & Hq & Hnd & Hr). unfold trial_step.
    destruct (N.ltb_spec divisor (sqrt_limit n)) as [L|L]; [left|right; auto]. split; auto.
    pose proof (sqrt_limit_le n ltac:(unfold two64 in *; simpl; lia)) as Hl.
    rewrite u64_rem_ok by lia. cbn [bind].
    assert (Hd2 : divisor + 2 < two64).
    { unfold two64. change (2 ^ 32) with 4294967296 in *. lia. }
    assert (Hodd : N.odd (divisor + 2) = true) by (rewrite N.odd_add; rewrite Ho; reflexivity).
    destruct (N.eqb_spec (n mod divisor) 0) as [E|E].
    - apply N.mod_divide in E; [|lia].
      destruct (strip_ok divisor n) as (n' & k & Es & En & Hnd' & Hn'); [lia|lia|lia|].
      rewrite Es. cbn [bind]. rewrite u64_ok by auto. cbn [bind].
      exists n', (result ++ [divisor]). split; [reflexivity|].
      assert (Pd : nprime divisor).
      { destruct (nprime_divisor divisor) as (q & Pq & Dq); [lia|].
        assert (q = divisor); [|subst; auto].
        destruct (N.lt_ge_cases q divisor) as [Lq|Lq].
        - exfalso. apply (Hs q Pq Lq). now apply N.divide_trans with divisor.
        - apply N.divide_pos_le in Dq; lia. }
      assert (Hs' : forall q, nprime q -> q < divisor -> ~ (q | n')).
      { intros q Pq Lq D. apply (Hs q Pq Lq). rewrite En. now apply N.divide_mul_r. }
      assert (Hk : k <> 0).
      { intros ->. rewrite N.pow_0_r, N.mul_1_l in En. subst. auto. }
      split; [lia|]. split; [lia|]. split; [auto|]. split; [|split; [|split]].
      + intros q Pq Lq. now apply (no_small_prime n' divisor).
      + intros q Pq. rewrite (Hq q Pq), in_app_iff. simpl. rewrite En at 1. split.
        * intros [H|H]; auto. apply nprime_mul in H as [H|H]; auto.
          apply nprime_pow in H; auto. left. right. left.
          destruct Pd as [_ Pd]. destruct (Pd q H); auto. destruct Pq. lia.
        * intros [[H|[H|[]]]|H]; auto.
          -- subst q. right. apply N.divide_mul_l. replace k with (N.succ (N.pred k)) by lia.
             rewrite N.pow_succ_r'. now exists (divisor ^ N.pred k); rewrite N.mul_comm.
          -- right. now apply N.divide_mul_r.
      + apply NoDup_app_remove_l with (l := nil) || idtac. apply NoDup_Add with (a := divisor) (l := result).
        * rewrite <- (app_nil_r result) at 1. apply Add_app.
        * split; auto. intros Hin. apply Hr in Hin. lia.
      + intros q Hin. apply in_app_iff in Hin as [Hin|[<-|[]]].
        * destruct (Hr q Hin). split; auto. lia.
        * split; auto. lia.
    - cbn [bind]. rewrite u64_ok by auto. cbn [bind]. exists n, result. split; [reflexivity|].
      assert (Hndv : ~ (divisor | n)) by (intros D; apply E; apply N.mod_divide; [lia|auto]).
      split; [lia|]. split; [lia|]. split; [auto|]. split; [|split; [|split]]; auto.
      + intros q Pq Lq. now apply (no_small_prime n divisor).
      + intros q Hin. destruct (Hr q Hin). split; auto. lia.
  Qed.

  (** the whole loop *)
  Lemma trial_ok n result :
    trial_inv n 3 result ->
    exists n' divisor result', while (trial_step m) (n, 3, sqrt_limit n, result) = Ok (n', result') /\
      trial_inv n' divisor result' /\ sqrt_limit n' <= divisor.
  Proof.
    intros Hi.
    destruct (while_inv
      (fun '(n, d, l, r) => trial_inv n d r /\ l = sqrt_limit n)
      (fun '(n, r) => exists d, trial_inv n d r /\ sqrt_limit n <= d)
      (fun '(n, d, l, r) => 2 ^ 33 - d) (trial_step m) (n, 3, sqrt_limit n, result))
      as ([n' r'] & E & d & P1 & P2).
    - intros [[[x d] l] r] [Hx ->].
      destruct (trial_step_ok x d r Hx) as [(L & x' & r' & E & I)|(L & E)]; [left|right].
      + exists (x', d + 2, sqrt_limit x', r'). rewrite E. split; [reflexivity|]. split; [split; auto|].
        cbv beta iota. destruct I as (_ & I & _). change (2 ^ 32) with 4294967296 in *. change (2 ^ 33) with 8589934592. lia.
      + exists (x, r). rewrite E. split; auto. exists d. auto.
    - auto.
    - reflexivity.
    - exists n', d, r'. auto.
  Qed.
End Trial.

(** a number without prime divisors up to its square root is prime *)
Lemma sqrt_prime n d : 1 < n -> N.sqrt n < d -> (forall q, nprime q -> q < d -> ~ (q | n)) -> nprime n.
Proof.
  intros Hn Hd Hs. destruct (nprime_divisor n Hn) as (q & Pq & [c Hc]).
  assert (Hq : d <= q). { destruct (N.lt_ge_cases q d) as [L|L]; auto. exfalso. apply (Hs q Pq L). now exists c. }
  assert (Hc0 : c <> 0) by (intros ->; lia).
  destruct (N.eq_dec c 1) as [->|Hc1]; [rewrite N.mul_1_l in Hc; now subst|].
  destruct (nprime_divisor c) as (q' & Pq' & [c' Hc']); [lia|].
  assert (Hq' : d <= q').
  { destruct (N.lt_ge_cases q' d) as [L|L]; auto. exfalso. apply (Hs q' Pq' L).
    apply N.divide_trans with c; [now exists c'|]. exists q. lia. }
  exfalso. pose proof (N.sqrt_spec n ltac:(lia)) as [_ S].
  assert (N.succ (N.sqrt n) <= q) by lia. assert (N.succ (N.sqrt n) <= q') by lia.
  assert (c' <> 0) by (intros ->; lia).
  assert (q' <= c) by nia. nia.
Qed.

(** ** distinct_prime_factors: for every u64 n it stops without overflow; all but possibly the last
    number are the distinct primes found *)
Lemma factors_run m n : 1 <= n -> n < two64 ->
  exists n' result, distinct_prime_factors m n = Ok (result ++ (if 1 <? n' then [n'] else [])) /\
    1 <= n' <= n /\
    (forall q, nprime q -> ((q | n) <-> In q result \/ (q | n'))) /\
    NoDup result /\ (forall q, In q result -> nprime q) /\
    (exists d, (sqrt_limit n' <= d \/ n' = 1) /\ (forall q, nprime q -> q < d -> ~ (q | n')) /\
        forall q, In q result -> q < d).
Proof.
  intros Hn Hn2. unfold distinct_prime_factors.
  assert (P2 : nprime 2).
  { split; [lia|]. intros d D. apply N.divide_pos_le in D as L; [|lia].
    assert (d <> 0) by (intros ->; destruct D; lia). lia. }
  assert (Hpre : exists n1 r1, (if n mod 2 =? 0 then n <- strip 2 n;; Ok (n, [2]) else Ok (n, [])) = Ok (n1, r1) /\
    trial_inv n n1 3 r1).
  { destruct (N.eqb_spec (n mod 2) 0) as [E|E].
    - apply N.mod_divide in E; [|lia].
      destruct (strip_ok 2 n) as (n' & k & Es & En & Hnd' & Hn'); [lia|lia|lia|].
      rewrite Es. cbn [bind]. exists n', [2]. split; auto.
      assert (Hk : k <> 0). { intros ->. rewrite N.pow_0_r, N.mul_1_l in En. subst. auto. }
      split; [lia|]. split; [lia|]. split; [reflexivity|]. split; [|split; [|split]].
      + intros q [Hq _] Lq. assert (q = 2) by lia. now subst.
      + intros q Pq. simpl. rewrite En at 1. split.
        * intros H. apply nprime_mul in H as [H|H]; auto. apply nprime_pow in H; auto.
          left. left. destruct P2 as [_ P2]. destruct (P2 q H); auto. destruct Pq. lia.
        * intros [[H|[]]|H].
          -- subst q. apply N.divide_mul_l. replace k with (N.succ (N.pred k)) by lia.
             rewrite N.pow_succ_r'. now exists (2 ^ N.pred k); rewrite N.mul_comm.
          -- now apply N.divide_mul_r.
      + constructor; [auto|constructor].
      + intros q [<-|[]]. split; auto. lia.
    - exists n, []. split; auto. split; [lia|]. split; [lia|]. split; [reflexivity|]. split; [|split; [|split]].
      + intros q [Hq _] Lq D. assert (q = 2) by lia. subst. apply E. apply N.mod_divide; [lia|auto].
      + intros q Pq. simpl. tauto.
      + constructor.
      + intros q []. }
  destruct Hpre as (n1 & r1 & E & I). rewrite E. cbn [bind].
  destruct (N.ltb_spec 1 n1) as [L|L].
  - destruct (trial_ok m n Hn2 n1 r1 I) as (n2 & d & r2 & E2 & (I1 & _ & _ & I4 & I5 & I6 & I7) & Hl).
    rewrite E2. cbn [bind]. exists n2, r2. split; [|split; [|split; [|split; [|split]]]]; auto.
    + destruct (1 <? n2); [auto|now rewrite app_nil_r].
    + intros q Hin. now apply I7.
    + exists d. split; auto. split; auto. intros q Hin. now apply I7.
  - destruct I as (I1 & _ & _ & I4 & I5 & I6 & I7). assert (n1 = 1) by lia. subst n1.
    exists 1, r1. split; [|split; [|split; [|split; [|split]]]]; auto.
    + simpl. now rewrite app_nil_r.
    + intros q Hin. now apply I7.
    + exists 3. split; auto. split; auto. intros q Hin. now apply I7.
Qed.

(** exactness, when the f32 bound does not cut the search short *)
Lemma factors_exact m n : 1 <= n -> n < 2 ^ 48 ->
  exists l, distinct_prime_factors m n = Ok l /\ NoDup l /\ forall q, In q l <-> nprime q /\ (q | n).
Proof.
  intros Hn Hn2.
  destruct (factors_run m n Hn) as (n' & r & E & H1 & H3 & H4 & H5 & (d & H6 & H7 & H8)).
  { unfold two64. change (2 ^ 48) with 281474976710656 in *. lia. }
  exists (r ++ if 1 <? n' then [n'] else []). split; auto.
  destruct (N.ltb_spec 1 n') as [L|L].
  - assert (Pn : nprime n').
    { apply sqrt_prime with d; auto. destruct H6 as [H6|]; [|lia].
      pose proof (sqrt_limit_gt n' ltac:(lia)). lia. }
    split.
    + apply NoDup_Add with (a := n') (l := r); [rewrite <- (app_nil_r r) at 1; apply Add_app|].
      split; auto. intros Hin. apply (H7 n' Pn); [auto|apply N.divide_refl].
    + intros q. rewrite in_app_iff. simpl. split.
      * intros [Hin|[<-|[]]].
        -- split; auto. apply H3; auto.
        -- split; auto. apply H3; auto. right. apply N.divide_refl.
      * intros [Pq Dq]. apply H3 in Dq as [Dq|Dq]; auto. right. left.
        destruct Pn as [_ Pn]. destruct (Pn q Dq); auto. destruct Pq. lia.
  - rewrite app_nil_r. split; auto. intros q. split.
    + intros Hin. split; auto. apply H3; auto.
    + intros [Pq Dq]. apply H3 in Dq as [Dq|Dq]; auto. assert (n' = 1) by lia. subst.
      apply N.divide_1_r in Dq. destruct Pq. lia.
Qed.
