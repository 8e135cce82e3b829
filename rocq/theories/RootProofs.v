(** * primitive_root and the constants of RadersAlgorithm::new *)
From Verif Require Import NumTheory MathUtils F32Sqrt Residues RadersProof Raders MathProofs.
From Coq Require Import Arith NArith ZArith Znumtheory Lia List Wf_nat.
Import ListNotations.
Local Open Scope N_scope.

Lemma divide_all_ok n l : (forall f, In f l -> f <> 0) -> divide_all n l = Ok (map (fun f => n / f) l).
Proof.
  induction l as [|f l IH]; intros H; auto. cbn [divide_all].
  rewrite u64_div_ok by (apply H; now left). cbn [bind]. rewrite IH by (intros; apply H; now right). reflexivity.
Qed.

Lemma rejected_ok m r p l :
  r < p -> 2 <= p <= 2 ^ 32 -> (forall e, In e l -> e < two64) ->
  exists b, rejected m r p l = Ok b /\ (b = true <-> exists e, In e l /\ r ^ e mod p = 1).
Proof.
  intros Hr Hp. induction l as [|e l IH]; intros Hl; cbn [rejected].
  - exists false. split; auto. split; [discriminate|]. intros (e & [] & _).
  - rewrite modular_exponent_ok; auto; try lia; [|apply Hl; now left]. cbn [bind].
    destruct (N.eqb_spec (r ^ e mod p) 1) as [E|E].
    + exists true. split; auto. split; auto. intros _. exists e. split; auto. now left.
    + destruct IH as (b & Eb & Hb); [intros; apply Hl; now right|]. exists b. split; auto.
      rewrite Hb. split.
      * intros (e' & Hin & H). exists e'. split; auto. now right.
      * intros (e' & [<-|Hin] & H); [tauto|]. eauto.
Qed.

(** [r] is a primitive root mod [p], in N *)
Lemma npow_mod_nat r e p : p <> 0 -> N.to_nat (r ^ e mod p) = (N.to_nat r ^ N.to_nat e mod N.to_nat p)%nat.
Proof. intros. now rewrite N2Nat.inj_mod, N2Nat.inj_pow. Qed.

Lemma primitive_root_ok m p :
  nprime p -> 3 <= p <= 2 ^ 32 ->
  exists r, primitive_root m p = Ok (Some r) /\ 2 <= r < p /\ no_small_order (N.to_nat p) (N.to_nat r) /\
    forall r', 2 <= r' < r -> ~ no_small_order (N.to_nat p) (N.to_nat r').
Proof.
  intros Pp Hp. apply nprime_nat in Pp as Sp. unfold primitive_root.
  destruct (N.eqb_spec p 0); [lia|]. cbn [bind].
  assert (P32 : 2 ^ 32 = 4294967296) by reflexivity.
  destruct (factors_exact m (p - 1)) as (l & E & _ & Hl); [lia|change (2 ^ 48) with 281474976710656; lia|].
  rewrite E. cbn [bind]. rewrite divide_all_ok.
  2:{ intros f Hf. apply Hl in Hf as [[Hf _] _]. lia. }
  cbn [bind].
  set (exps := map (fun f => (p - 1) / f) l).
  assert (Hexp : forall e, In e exps -> e < two64).
  { intros e He. apply in_map_iff in He as (f & <- & Hf).
    apply Hl in Hf as [[Hf _] _]. assert ((p - 1) / f <= p - 1) by (apply N.div_le_upper_bound; nia).
    unfold two64. lia. }
  assert (Htest : forall r, 2 <= r < p ->
    (~ exists e, In e exps /\ r ^ e mod p = 1) -> no_small_order (N.to_nat p) (N.to_nat r)).
  { intros r Hr Hno. apply factor_test; auto.
    - rewrite Nat.mod_small; lia.
    - intros q Pq Dq E1. apply Hno. exists ((p - 1) / N.of_nat q). split.
      + apply in_map_iff. exists (N.of_nat q). split; auto. apply Hl. split.
        * apply nprime_nat. now rewrite Nat2N.id.
        * apply ndivide_nat. rewrite Nat2N.id. now replace (N.to_nat (p - 1)) with (N.to_nat p - 1)%nat by lia.
      + apply N2Nat.inj. rewrite npow_mod_nat by lia. rewrite N2Nat.inj_div, Nat2N.id.
        replace (N.to_nat (p - 1)) with (N.to_nat p - 1)%nat by lia. exact E1. }
  assert (Hrej : forall r, 2 <= r < p -> (exists e, In e exps /\ r ^ e mod p = 1) ->
    ~ no_small_order (N.to_nat p) (N.to_nat r)).
  { intros r Hr (e & He & Hre) [_ Ho]. apply in_map_iff in He as (f & <- & Hf).
    apply Hl in Hf as [[Hf _] [c Hc]].
    assert (Ec : (p - 1) / f = c) by (rewrite Hc; apply N.div_mul; lia). rewrite Ec in Hre.
    apply (Ho (N.to_nat c)).
    - assert (0 < c) by (destruct c; lia). nia.
    - rewrite <- npow_mod_nat by lia. now rewrite Hre. }
  match goal with |- context [while ?f ?s] =>
    destruct (while_inv
      (fun r => 2 <= r <= p /\ forall r', 2 <= r' < r -> ~ no_small_order (N.to_nat p) (N.to_nat r'))
      (fun x => exists r, x = Some r /\ 2 <= r < p /\ no_small_order (N.to_nat p) (N.to_nat r) /\
         forall r', 2 <= r' < r -> ~ no_small_order (N.to_nat p) (N.to_nat r'))
      (fun r => p - r) f s) as (x & Ex & r & -> & P) end.
  - intros r (Hr & Hprev). destruct (N.ltb_spec r p) as [L|L].
    + destruct (rejected_ok m r p exps) as (b & Eb & Hb); auto; [lia|]. rewrite Eb. cbn [bind].
      destruct b.
      * left. eexists. split; [reflexivity|]. split; [|lia]. split; [lia|].
        intros r' Hr'. destruct (N.eq_dec r' r) as [->|]; [|apply Hprev; lia].
        apply Hrej; [lia|]. now apply Hb.
      * right. eexists. split; [reflexivity|]. exists r. split; auto. split; [lia|]. split; auto.
        apply Htest; [lia|]. intros C. apply Hb in C. discriminate.
    + exfalso. destruct (primitive_root_exists _ Sp) as (g & Hg & Og).
      assert (g <> 1%nat).
      { intros ->. destruct Og as [_ Og]. apply (Og 1%nat); [lia|]. simpl. apply Nat.mod_small. lia. }
      apply (Hprev (N.of_nat g)); [lia|]. now rewrite Nat2N.id.
  - split; [lia|]. intros; lia.
  - unfold two64. lia.
  - exists r. auto.
Qed.

(** ** extended_gcd *)
Lemma ext_gcd_go_ok (a b : Z) : (0 < a < b)%Z ->
  forall fuel s0 s1 r0 r1,
    (0 <= r0 < r1)%Z -> (r0 * r1 < 2 ^ Z.of_nat fuel)%Z -> Z.gcd r0 r1 = 1%Z ->
    (b | s0 * a - r0)%Z -> (b | s1 * a - r1)%Z ->
    (Z.abs s0 * r1 + Z.abs s1 * r0 = b)%Z -> (s0 * s1 <= 0)%Z -> (Z.abs s1 < b)%Z ->
    exists x, ext_gcd_go (S fuel) s0 s1 r0 r1 = Ok (1, x)%Z /\ (b | x * a - 1)%Z /\ (Z.abs x < b)%Z.
Proof.
  intros Hab. induction fuel; intros s0 s1 r0 r1 Hr Hf Hg D0 D1 Hs Hss Hb; cbn [ext_gcd_go].
  - destruct (Z.eqb_spec r0 0) as [->|].
    + rewrite Z.gcd_0_l in Hg. rewrite Z.abs_eq in Hg by lia. subst r1. exists s1. auto.
    + exfalso. simpl in Hf. nia.
  - destruct (Z.eqb_spec r0 0) as [->|Hr0].
    + rewrite Z.gcd_0_l in Hg. rewrite Z.abs_eq in Hg by lia. subst r1. exists s1. auto.
    + rewrite Z.quot_div_nonneg by lia. set (q := (r1 / r0)%Z).
      pose proof (Z.div_mod r1 r0 Hr0) as Dv. fold q in Dv. pose proof (Z.mod_pos_bound r1 r0 ltac:(lia)) as Mb.
      assert (Er : (r1 - q * r0 = r1 mod r0)%Z) by lia.
      assert (Hq : (1 <= q)%Z) by (apply Z.div_le_lower_bound; lia).
      assert (Ha : (Z.abs (s1 - q * s0) = Z.abs s1 + q * Z.abs s0)%Z).
      { destruct (Z.abs_spec s0) as [[? ->]|[? ->]]; destruct (Z.abs_spec s1) as [[? ->]|[? ->]];
          destruct (Z.abs_spec (s1 - q * s0)) as [[? ->]|[? ->]]; try nia. }
      change (exists x, ext_gcd_go (S fuel) (s1 - q * s0) s0 (r1 - q * r0) r0 = Ok (1, x)%Z /\
        (b | x * a - 1)%Z /\ (Z.abs x < b)%Z).
      apply IHfuel.
      * lia.
      * rewrite Nat2Z.inj_succ, Z.pow_succ_r in Hf by lia. nia.
      * rewrite <- Hg. rewrite (Z.gcd_comm r0 r1). rewrite Er. rewrite Z.gcd_mod by lia. now rewrite Z.gcd_comm.
      * replace ((s1 - q * s0) * a - (r1 - q * r0))%Z with ((s1 * a - r1) - q * (s0 * a - r0))%Z by ring.
        apply Z.divide_sub_r; auto. now apply Z.divide_mul_r.
      * auto.
      * rewrite Ha, Er. rewrite Dv in Hs. nia.
      * destruct (Z.abs_spec s0) as [[? _]|[? _]]; nia.
      * pose proof (Z.abs_nonneg s1). pose proof (Z.abs_nonneg s0). nia.
Qed.

Lemma ext_gcd_go_S f s0 s1 r0 r1 : ext_gcd_go (S f) s0 s1 r0 r1 =
  if (r0 =? 0)%Z then Ok (r1, s1)
  else let q := (r1 ÷ r0)%Z in ext_gcd_go f (s1 - q * s0)%Z s0 (r1 - q * r0)%Z r0.
Proof. reflexivity. Qed.

Lemma extended_gcd_ok (a b : Z) : (1 <= a < b)%Z -> (b <= 2 ^ 64)%Z -> Z.gcd a b = 1%Z ->
  exists x, extended_gcd a b = Ok (1, x)%Z /\ (b | x * a - 1)%Z /\ (Z.abs x < b)%Z.
Proof.
  intros Hab Hb Hg. unfold extended_gcd.
  rewrite (ext_gcd_go_S 199).
  destruct (Z.eqb_spec b 0); [lia|]. cbv zeta. rewrite Z.quot_small by lia.
  rewrite Z.mul_0_l, !Z.sub_0_r.
  apply (ext_gcd_go_ok a b ltac:(lia) 198); auto; try lia.
  - apply Z.lt_le_trans with (2 ^ 64 * 2 ^ 64)%Z; [nia|]. rewrite <- Z.pow_add_r by lia.
    apply Z.pow_le_mono_r; lia.
  - exists 0%Z. lia.
  - exists (-1)%Z. lia.
Qed.

(** ** the model of primal_check decides primality *)
Lemma miller_rabin_ok n : miller_rabin n = true <-> nprime n.
Proof.
  unfold miller_rabin. rewrite andb_true_iff, N.ltb_lt, forallb_forall. split.
  - intros [Hn H]. apply sqrt_prime with (N.sqrt n + 1); auto; [lia|].
    intros q [Hq Pq] Lq Dq.
    specialize (H (N.to_nat q)). rewrite N2Nat.id in H.
    assert (Hin : In (N.to_nat q) (seq 2 (N.to_nat (N.sqrt n) - 1))) by (apply in_seq; lia).
    specialize (H Hin). apply N.mod_divide in Dq; [|lia]. rewrite Dq in H. discriminate.
  - intros [Hn H]. split; auto. intros d Hd. apply in_seq in Hd. apply negb_true_iff, N.eqb_neq.
    intros E. apply N.mod_divide in E; [|lia].
    pose proof (N.sqrt_lt_lin n ltac:(lia)). destruct (H _ E); lia.
Qed.

(** ** both constants of Rader's algorithm *)
Lemma raders_roots_ok m p :
  nprime (N.of_nat p) -> (3 <= p)%nat -> N.of_nat p <= 2 ^ 32 ->
  exists r s, raders_roots m p = Ok (r, s) /\ (2 <= r < p)%nat /\ (s < p)%nat /\
    no_small_order p r /\ no_small_order p s /\ ((r * s) mod p = 1)%nat.
Proof.
  intros Pp Hp Hp2. unfold raders_roots.
  destruct (primitive_root_ok m (N.of_nat p) Pp) as (r & E & Hr & Or & _); [lia|].
  rewrite E. cbn [bind]. rewrite Nat2N.id in Or.
  assert (Sp : std_prime p) by (apply nprime_nat in Pp; now rewrite Nat2N.id in Pp).
  assert (P32 : 2 ^ 32 = 4294967296) by reflexivity.
  destruct (extended_gcd_ok (Z.of_N r) (Z.of_nat p)) as (x & Ex & Dx & Bx); [lia|lia| |].
  { set (rz := Z.of_N r). pose proof (Z.gcd_divide_l rz (Z.of_nat p)) as D1.
    pose proof (Z.gcd_divide_r rz (Z.of_nat p)) as D2. pose proof (Z.gcd_nonneg rz (Z.of_nat p)).
    set (g := Z.gcd rz (Z.of_nat p)) in *.
    destruct Sp as [_ Sp]. destruct (Sp (Z.to_nat g)) as [G|G].
    - destruct D2 as [c Hc]. exists (Z.to_nat c). nia.
    - lia.
    - exfalso. apply Z.divide_pos_le in D1; unfold rz in *; lia. }
  rewrite Ex. cbn [bind].
  set (s := if (0 <=? x)%Z then x else (x + Z.of_nat p)%Z).
  assert (Hs : (0 <= s < Z.of_nat p)%Z) by (unfold s; destruct (Z.leb_spec 0 x); lia).
  assert (Ds : (Z.of_nat p | s * Z.of_N r - 1)%Z).
  { unfold s. destruct (Z.leb_spec 0 x); auto.
    replace ((x + Z.of_nat p) * Z.of_N r - 1)%Z with ((x * Z.of_N r - 1) + Z.of_N r * Z.of_nat p)%Z by ring.
    apply Z.divide_add_r; auto. now exists (Z.of_N r). }
  assert (M : ((N.to_nat r * Z.to_nat s) mod p = 1)%nat).
  { destruct Ds as [c Hc]. assert (0 <= c)%Z by nia.
    symmetry. apply Nat.mod_unique with (Z.to_nat c); [lia|].
    apply Nat2Z.inj. rewrite Nat2Z.inj_mul, Nat2Z.inj_add, Nat2Z.inj_mul, !Z2Nat.id by lia. rewrite N_nat_Z. lia. }
  exists (N.to_nat r), (Z.to_nat s). split; [reflexivity|]. split; [lia|]. split; [lia|]. split; auto. split; auto.
  now apply inverse_order with (N.to_nat r).
Qed.

(** ** where the search fails *)

(** a primality check that computes quickly *)
Fixpoint no_divisor (fuel : nat) (d n : N) : bool :=
  match fuel with
  | O => true
  | S f => negb (n mod d =? 0) && no_divisor f (d + 1) n
  end.
Lemma no_divisor_ok fuel d n : 0 < d -> no_divisor fuel d n = true ->
  forall q, d <= q < d + N.of_nat fuel -> ~ (q | n).
Proof.
  revert d. induction fuel; intros d Hd H q Hq D; [lia|]. cbn [no_divisor] in H.
  apply andb_true_iff in H as [H1 H2]. apply negb_true_iff, N.eqb_neq in H1.
  destruct (N.eq_dec q d) as [->|].
  - apply H1. apply N.mod_divide; [lia|auto].
  - apply (IHfuel (d + 1) ltac:(lia) H2 q); [lia|auto].
Qed.
Lemma quick_prime n : 1 < n -> no_divisor (N.to_nat (N.sqrt n)) 2 n = true -> nprime n.
Proof.
  intros Hn H. apply sqrt_prime with (N.sqrt n + 1); auto; [lia|].
  intros q [Hq _] Lq. apply (no_divisor_ok (N.to_nat (N.sqrt n)) 2 n ltac:(lia) H). rewrite N2Nat.id. lia.
Qed.

(** a square is not a primitive root *)
Lemma square_not_root p x r k :
  nprime p -> p = 2 * k + 1 -> 1 <= k -> 0 < x < p -> x * x mod p = r mod p ->
  ~ no_small_order (N.to_nat p) (N.to_nat r).
Proof.
  intros Pp Hk Hk1 Hx E [_ Ho]. apply nprime_nat in Pp.
  apply (Ho (N.to_nat k)); [lia|].
  assert (E' : ((N.to_nat x * N.to_nat x) mod N.to_nat p = N.to_nat r mod N.to_nat p)%nat).
  { rewrite <- N2Nat.inj_mul, <- !N2Nat.inj_mod. now rewrite E. }
  rewrite <- pow_mod_l, <- E', pow_mod_l by lia.
  replace (N.to_nat x * N.to_nat x)%nat with (N.to_nat x ^ 2)%nat by (simpl; lia).
  rewrite <- Nat.pow_mul_r. replace (2 * N.to_nat k)%nat with (N.to_nat p - 1)%nat by lia.
  apply fermat_std; auto. rewrite Nat.mod_small; lia.
Qed.

(** 4294967311 is the first prime above 2^32; its modular powers overflow.  With overflow checks the
    search panics; without them it returns 2, which is no primitive root. *)
Lemma root_search_overflow :
  nprime 4294967311 /\ primitive_root Debug 4294967311 = Panic /\
  primitive_root Release 4294967311 = Ok (Some 2) /\ ~ no_small_order (N.to_nat 4294967311) (N.to_nat 2).
Proof.
  assert (P : nprime 4294967311) by (apply quick_prime; vm_compute; reflexivity).
  split; [exact P|]. split; [vm_compute; reflexivity|]. split; [vm_compute; reflexivity|].
  apply (square_not_root 4294967311 2348684638 2 2147483655 P); [reflexivity|discriminate|split; reflexivity|vm_compute; reflexivity].
Qed.

(** a square of a prime is reported as a prime factor when the rounded root is one too small *)
Lemma factors_square m p :
  nprime p -> p <> 2 -> p * p < two64 -> sqrt_limit (p * p) <= p ->
  distinct_prime_factors m (p * p) = Ok [p * p].
Proof.
  intros Pp H2 Hb Hl. assert (Hp : 3 <= p) by (destruct Pp; lia).
  assert (Hdiv : forall d, 1 < d -> d < p -> (p * p) mod d <> 0).
  { intros d H1 Hd E. apply N.mod_divide in E; [|lia].
    destruct (nprime_divisor d H1) as (q & Pq & Dq).
    assert (q | p * p) as Dqp by (now apply N.divide_trans with d).
    apply nprime_mul in Dqp; auto. assert (q | p) as Dq' by tauto.
    destruct Pp as [_ Pp]. destruct (Pp q Dq'); [destruct Pq; lia|]. subst q.
    apply N.divide_pos_le in Dq; lia. }
  unfold distinct_prime_factors.
  destruct (N.eqb_spec ((p * p) mod 2) 0) as [E|_]; [exfalso; apply (Hdiv 2); auto; lia|]. cbn [bind].
  destruct (N.ltb_spec 1 (p * p)) as [L|L]; [|nia].
  destruct (while_inv
      (fun st => exists d, st = (p * p, d, sqrt_limit (p * p), []) /\ 3 <= d <= p + 1)
      (fun x => x = (p * p, [])) (fun '(n, d, l, r) => 2 * p - d) (trial_step m) (p * p, 3, sqrt_limit (p * p), []))
      as (x & Ex & ->).
  - intros st (d & -> & Hd). unfold trial_step. destruct (N.ltb_spec d (sqrt_limit (p * p))) as [L'|L'].
    + left. rewrite u64_rem_ok by lia. cbn [bind].
      destruct (N.eqb_spec ((p * p) mod d) 0) as [E|_]; [exfalso; apply (Hdiv d); auto; lia|]. cbn [bind].
      rewrite u64_ok by (unfold two64 in *; nia). cbn [bind]. eexists. split; [reflexivity|]. split; [|lia].
      exists (d + 2). split; auto. lia.
    + right. eauto.
  - exists 3. split; auto. lia.
  - nia.
  - rewrite Ex. cbn [bind]. destruct (N.ltb_spec 1 (p * p)); [reflexivity|lia].
Qed.

(** 16777259 is the first prime above 2^24; the f32 root of its square is 16777258. *)
Lemma factors_wrong m : nprime 16777259 /\ distinct_prime_factors m (16777259 * 16777259) = Ok [16777259 * 16777259].
Proof.
  assert (P : nprime 16777259) by (apply quick_prime; vm_compute; reflexivity).
  split; [exact P|]. apply (factors_square m 16777259 P); [discriminate|vm_compute; reflexivity|vm_compute; discriminate].
Qed.
