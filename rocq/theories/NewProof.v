(** * The constructors: no overflow goes unnoticed *)
From Verif Require Export New.
From Verif Require Import Lemmas.
From Coq Require Import NArith Lia.

Local Open Scope N_scope.
(** the sizes as multiples of [unit]: 2^28 or 2^60 *)
Definition unit_of (W : width) : N := match W with W32 => 268435456 | W64 => 1152921504606846976 end.
Lemma span_unit {W : width} : span = 16 * unit_of W.
Proof. destruct W; reflexivity. Qed.
Lemma unit_big (W : width) : 268435456 <= unit_of W.
Proof. destruct W; discriminate. Qed.
Lemma unit_top (W : width) : unit_of W <= 1152921504606846976.
Proof. destruct W; discriminate. Qed.
Lemma half_span {W : width} : span / 2 = 8 * unit_of W.
Proof. destruct W; reflexivity. Qed.
Definition most {W : width} : N := 8 * unit_of W - 1.
Lemma most_eq {W : width} : span / 2 - 1 = most.
Proof. destruct W; reflexivity. Qed.
(** linear arithmetic in terms of the unit *)
Ltac word := repeat rewrite span_unit in *; unfold most in *;
  match goal with W : width |- _ => pose proof (unit_big W); generalize dependent (unit_of W); intros end.
Ltac wnum := solve [word; lia].

Lemma u64_inv m v w : u64 m v = Ok w -> (v < two64 /\ w = v) \/ (m = Release /\ two64 <= v /\ w = v mod two64).
Proof.
  unfold u64. destruct (N.ltb_spec v two64); [intros [= <-]; auto|]. destruct m; [discriminate|]. intros [= <-]. auto.
Qed.
Lemma u64_ok m v : v < two64 -> u64 m v = Ok v.
Proof. intros. unfold u64. now apply N.ltb_lt in H as ->. Qed.
Lemma usize_inv {W : width} m v w : usize m v = Ok w -> (v < span /\ w = v) \/ (m = Release /\ span <= v /\ w = v mod span).
Proof.
  unfold usize. destruct (N.ltb_spec v span); [intros [= <-]; auto|]. destruct m; [discriminate|]. intros [= <-]. auto.
Qed.
Lemma usize_ok {W : width} m v : v < span -> usize m v = Ok v.
Proof. intros. unfold usize. now apply N.ltb_lt in H as ->. Qed.
Lemma bind_inv {A B} (r : res A) (k : A -> res B) b : bind r k = Ok b -> exists a, r = Ok a /\ k a = Ok b.
Proof. destruct r; try discriminate. simpl. eauto. Qed.

Lemma umul_inv {W : width} m a b v : umul m a b = Ok v ->
  (N.of_nat a * N.of_nat b < span /\ v = (a * b)%nat) \/ (span <= N.of_nat a * N.of_nat b /\ m = Release /\ N.of_nat v = (N.of_nat a * N.of_nat b) mod span).
Proof.
  unfold umul. intros H. apply bind_inv in H. destruct H as (w & H & [= <-]).
  destruct (usize_inv _ _ _ H) as [(L & ->)|(-> & L & ->)].
  - left. split; auto. rewrite <- Nat2N.inj_mul, Nat2N.id. reflexivity.
  - right. rewrite N2Nat.id. auto.
Qed.
Lemma umul_ok {W : width} m a b : N.of_nat a * N.of_nat b < span -> umul m a b = Ok (a * b)%nat.
Proof. intros L. unfold umul. rewrite usize_ok by auto. simpl. rewrite <- Nat2N.inj_mul, Nat2N.id. reflexivity. Qed.
Lemma uadd_inv {W : width} m a b v : uadd m a b = Ok v ->
  (N.of_nat a + N.of_nat b < span /\ v = (a + b)%nat) \/ (span <= N.of_nat a + N.of_nat b /\ m = Release /\ N.of_nat v = (N.of_nat a + N.of_nat b) mod span).
Proof.
  unfold uadd. intros H. apply bind_inv in H. destruct H as (w & H & [= <-]).
  destruct (usize_inv _ _ _ H) as [(L & ->)|(-> & L & ->)].
  - left. split; auto. rewrite <- Nat2N.inj_add, Nat2N.id. reflexivity.
  - right. rewrite N2Nat.id. auto.
Qed.
Lemma uadd_ok {W : width} m a b : N.of_nat a + N.of_nat b < span -> uadd m a b = Ok (a + b)%nat.
Proof. intros L. unfold uadd. rewrite usize_ok by auto. simpl. rewrite <- Nat2N.inj_add, Nat2N.id. reflexivity. Qed.

Lemma alloc_inv {W : width} b n u : alloc b n = Ok u -> N.of_nat n * b <= most.
Proof. unfold alloc, rassert. rewrite most_eq. destruct (N.leb_spec (N.of_nat n * b) most); [auto|discriminate]. Qed.
Lemma alloc_ok {W : width} b n : N.of_nat n * b <= most -> alloc b n = Ok tt.
Proof. intros L. unfold alloc. rewrite most_eq. apply N.leb_le in L. now rewrite L. Qed.
Lemma alloc_le {W : width} b n u c : alloc b n = Ok u -> c <= b -> N.of_nat n * c <= most.
Proof. intros A L. apply alloc_inv in A. nia. Qed.
Lemma alloc_result {W : width} b n : alloc b n = Ok tt \/ alloc b n = Panic.
Proof. unfold alloc, rassert. destruct (_ <=? _); auto. Qed.

Ltac bi H := let a := fresh "a" in let E := fresh "E" in apply bind_inv in H; destruct H as (a & E & H).

Section Len.
  Context {W : width} {T : Type} {NT : Num T}.
  Variables (m : profile) (size : N).
  Lemma half_le h : N.of_nat h <= 2 * N.of_nat (h / 2) + 1.
  Proof. pose proof (Nat.div_mod h 2 ltac:(lia)). pose proof (Nat.mod_upper_bound h 2 ltac:(lia)). lia. Qed.
  Lemma half_ge h : 2 * N.of_nat (h / 2) <= N.of_nat h.
  Proof. pose proof (Nat.div_mod h 2 ltac:(lia)). lia. Qed.

  Lemma nxn_new_inv k cap tab app (d D : Dht T) : nxn_new m size k cap tab app d = Ok D ->
    exists c, cap (dht_len d / 2)%nat = Ok c /\ alloc (2 * size) c = Ok tt /\ alloc (2 * size) (dht_len d / 2) = Ok tt /\
      umul m k (dht_len d) = Ok (dht_len D).
  Proof.
    unfold nxn_new. intros H. bi H. bi H. bi H. bi H. bi H. bi H. injection H as <-.
    exists a0. destruct a1, a2. auto.
  Qed.

  Ltac scale := match goal with H : N.of_nat (dht_len ?d) <= 2 * N.of_nat (dht_len ?d / 2) + 1 |- _ =>
    pose proof (N.mul_le_mono_r _ _ size H); try rewrite Nat2N.inj_mul in *; try rewrite Nat2N.inj_add in *; simpl N.of_nat in *; lia end.
  Hypothesis S2 : 2 <= size.
  Lemma two_len (d D : Dht T) : radix2_new m size d = Ok D -> dht_len D = (2 * dht_len d)%nat /\ N.of_nat (dht_len D) * size <= 2 * most + 2 * size.
  Proof.
    intros H. destruct (nxn_new_inv _ _ _ _ _ _ H) as (c & Hc & A1 & A2 & L).
    pose proof (alloc_le _ _ _ 4 A2 ltac:(lia)) as B. apply alloc_inv in A2. pose proof (half_le (dht_len d)). 
    destruct (umul_inv _ _ _ _ L) as [(L1 & E)|(L1 & _)]; [|wnum]. rewrite E. split; auto. rewrite Nat2N.inj_mul. scale.
  Qed.
  Lemma three_len (d D : Dht T) : radix3_new m size d = Ok D -> dht_len D = (3 * dht_len d)%nat /\ N.of_nat (dht_len D) * (2 * size) <= 3 * most + 6 * size.
  Proof.
    intros H. destruct (nxn_new_inv _ _ _ _ _ _ H) as (c & Hc & A1 & A2 & L).
    pose proof (alloc_le _ _ _ 4 A2 ltac:(lia)) as B. pose proof (half_le (dht_len d)). 
    destruct (umul_inv _ _ _ _ Hc) as [(_ & ->)|(L1 & _)]; [|wnum].
    pose proof (alloc_le _ _ _ 4 A1 ltac:(lia)) as B1. apply alloc_inv in A1. 
    destruct (umul_inv _ _ _ _ L) as [(L1 & E)|(L1 & _)]; [|wnum]. rewrite E. split; auto. rewrite Nat2N.inj_mul. scale.
  Qed.
  Lemma four_len (d D : Dht T) : radix4xn_new m size d = Ok D -> dht_len D = (4 * dht_len d)%nat /\ N.of_nat (dht_len D) * size <= 2 * most.
  Proof.
    intros H. destruct (nxn_new_inv _ _ _ _ _ _ H) as (c & Hc & A1 & A2 & L).
    pose proof (alloc_le _ _ _ 4 A2 ltac:(lia)) as B. pose proof (half_le (dht_len d)). 
    bi Hc. destruct (uadd_inv _ _ _ _ E) as [(_ & ->)|(L1 & _)]; [|wnum].
    destruct (umul_inv _ _ _ _ Hc) as [(_ & ->)|(L1 & _)]; [|wnum].
    pose proof (alloc_le _ _ _ 4 A1 ltac:(lia)) as B1. apply alloc_inv in A1. 
    destruct (umul_inv _ _ _ _ L) as [(L1 & E1)|(L1 & _)]; [|wnum]. rewrite E1. split; auto. rewrite Nat2N.inj_mul. scale.
  Qed.
  Lemma five_len (d D : Dht T) : radix5_new m size d = Ok D -> dht_len D = (5 * dht_len d)%nat /\ N.of_nat (dht_len D) * (2 * size) <= 5 * most + 10 * size.
  Proof.
    intros H. destruct (nxn_new_inv _ _ _ _ _ _ H) as (c & Hc & A1 & A2 & L).
    pose proof (alloc_le _ _ _ 4 A2 ltac:(lia)) as B. pose proof (half_le (dht_len d)). 
    destruct (umul_inv _ _ _ _ Hc) as [(_ & ->)|(L1 & _)]; [|wnum].
    pose proof (alloc_le _ _ _ 4 A1 ltac:(lia)) as B1. apply alloc_inv in A1. 
    destruct (umul_inv _ _ _ _ L) as [(L1 & E)|(L1 & _)]; [|wnum]. rewrite E. split; auto. rewrite Nat2N.inj_mul. scale.
  Qed.
  Lemma six_len (d D : Dht T) : radix6_new m size d = Ok D -> dht_len D = (6 * dht_len d)%nat /\ N.of_nat (dht_len D) * size <= 2 * most + 6 * size.
  Proof.
    intros H. destruct (nxn_new_inv _ _ _ _ _ _ H) as (c & Hc & A1 & A2 & L).
    pose proof (alloc_le _ _ _ 4 A2 ltac:(lia)) as B. pose proof (half_le (dht_len d)). 
    destruct (umul_inv _ _ _ _ Hc) as [(_ & ->)|(L1 & _)]; [|wnum].
    pose proof (alloc_le _ _ _ 4 A1 ltac:(lia)) as B1. apply alloc_inv in A1. 
    destruct (umul_inv _ _ _ _ L) as [(L1 & E)|(L1 & _)]; [|wnum]. rewrite E. split; auto. rewrite Nat2N.inj_mul. scale.
  Qed.

  (** at most isize::MAX bytes of twiddles leave room for the product *)
  Lemma mixed_len (dw dh D : Dht T) : N.of_nat (dht_len dw) < span -> N.of_nat (dht_len dh) < span -> mixed_new m size dw dh = Ok D ->
    dht_len D = (dht_len dw * dht_len dh)%nat /\ N.of_nat (dht_len D) * size <= 2 * most.
  Proof.
    intros W1 W2 H. unfold mixed_new in H. cbv zeta in H. bi H. bi H. bi H. bi H. bi H. bi H. bi H. bi H. injection H as <-. cbn [dht_len boilerplate_dht].
    set (w := dht_len dw) in *. set (h := dht_len dh) in *.
    pose proof (half_le w) as Hw. pose proof (half_le h) as Hh. pose proof (half_ge w) as Gw. pose proof (half_ge h) as Gh.
    destruct (uadd_inv _ _ _ _ E0) as [(_ & ->)|(L1 & _)]; [|wnum].
    destruct (uadd_inv _ _ _ _ E1) as [(_ & ->)|(L1 & _)]; [|wnum].
    pose proof (alloc_le _ _ _ 4 E4 ltac:(lia)) as B2.
    rewrite !Nat.add_sub in B2. rewrite Nat2N.inj_mul in B2.
    set (p := N.of_nat (w / 2)) in *. set (q := N.of_nat (h / 2)) in *.
    assert (C : a2 = ((w / 2 + 1) * (h / 2 + 1))%nat).
    { destruct (umul_inv _ _ _ _ E2) as [(_ & ->)|(L1 & _)]; auto. exfalso.
      rewrite !Nat2N.inj_add in L1. fold p q in L1. change (N.of_nat 1) with 1 in L1.
      destruct (N.eq_dec p 0) as [Z|Z]; [rewrite Z in *; wnum|]. destruct (N.eq_dec q 0) as [Z'|Z']; [rewrite Z' in *; wnum|].
      word. nia. }
    subst a2. pose proof (alloc_le _ _ _ 4 E3 ltac:(lia)) as B1. apply alloc_inv in E3. 
    rewrite Nat2N.inj_mul, !Nat2N.inj_add in B1, E3. fold p q in B1, E3. change (N.of_nat 1) with 1 in B1, E3.
    assert (X : N.of_nat w * N.of_nat h <= (2 * p + 1) * (2 * q + 1)) by (apply N.mul_le_mono; auto).
    destruct (umul_inv _ _ _ _ E) as [(L1 & ->)|(L1 & _)].
    - split; auto. rewrite Nat2N.inj_mul. apply (N.le_trans _ ((2 * p + 1) * (2 * q + 1) * size)); [now apply N.mul_le_mono_r|]. clear - E3 B2 S2. nia.
    - word. nia.
  Qed.
  Lemma naive_len n (D : Dht T) : naive_new size n = Ok D -> dht_len D = n /\ N.of_nat (dht_len D) * size <= most.
  Proof. unfold naive_new. intros H. bi H. injection H as <-.
    assert (L : dht_len (dht_naive n : Dht T) = n) by (cbn; unfold naive_twiddles; now rewrite map_length, seq_length).
    rewrite L. split; auto. apply (alloc_inv _ _ _ E).
  Qed.
  Lemma radix4_len n (D : Dht T) : radix4_new m size n = Ok D -> dht_len D = n /\ N.of_nat (dht_len D) * size <= most.
  Proof.
    unfold radix4_new. intros H. bi H. destruct (radix4_base n) as [b db]. bi H. bi H. bi H. injection H as <-. cbn.
    split; auto. apply (alloc_le _ _ _ size E1). lia.
  Qed.
  Lemma rader_len (d D : Dht T) : N.of_nat (dht_len d) < span -> raders_new m size d = Ok D ->
    dht_len D = (dht_len d + 1)%nat /\ N.of_nat (dht_len D) * size <= most + size.
  Proof.
    intros U H. unfold raders_new in H. bi H. bi H. bi H. destruct a1 as [r ri]. bi H. bi H. bi H. bi H. bi H. bi H. bi H. bi H. injection H as <-.
    cbn [dht_len boilerplate_dht]. apply alloc_inv in E2. 
    destruct (uadd_inv _ _ _ _ E) as [(L & ->)|(L & _ & Z)]; [split; [auto|lia]|]. exfalso.
    assert (X : N.of_nat (dht_len d) + N.of_nat 1 = span) by (wnum).
    rewrite X, N.mod_same in Z by (destruct W; discriminate). assert (a = 0%nat) by lia. subst a.
    apply (f_equal (fun r => match r with Ok _ => true | _ => false end)) in E0. vm_compute in E0. discriminate.
  Qed.
  Lemma split_len (dq dh D : Dht T) : split_new m size dq dh = Ok D ->
    (N.of_nat (dht_len dq) * 4 < span -> dht_len dh = (dht_len dq * 2)%nat /\ dht_len D = (dht_len dq * 4)%nat) /\
    (m = Debug -> dht_len dh = (dht_len dq * 2)%nat /\ dht_len D = (dht_len dq * 4)%nat) /\
    N.of_nat (dht_len D) * size <= 2 * most.
  Proof.
    intros H. unfold split_new in H. bi H. bi H. bi H. bi H. bi H. bi H. bi H. injection H as <-. cbn [dht_len boilerplate_dht].
    assert (HH : dht_len dh = a).
    { unfold rassert in E0. destruct (Nat.eqb_spec (dht_len dh) a); [auto|discriminate]. }
    assert (X : (N.of_nat (dht_len dq) * 4 < span \/ m = Debug) -> dht_len dh = (dht_len dq * 2)%nat /\ a1 = (dht_len dq * 4)%nat).
    { intros Y. destruct (umul_inv _ _ _ _ E) as [(L & ->)|(L & R & _)]; [|destruct Y; [lia|congruence]].
      destruct (umul_inv _ _ _ _ E1) as [(L' & ->)|(L' & R & _)]; [|destruct Y; [lia|congruence]]. auto. }
    split; [auto|]. split; [auto|].
    assert (B1 : N.of_nat (dht_len dq) * 4 >= span \/ N.of_nat (dht_len dq) * 4 < span) by lia.
    assert (A1 : N.of_nat a1 < span).
    { destruct (umul_inv _ _ _ _ E1) as [(L' & ->)|(L' & R & Z)]; [rewrite Nat2N.inj_mul; exact L'|].
      rewrite Z. apply N.mod_lt. destruct W; discriminate. }
    pose proof (Nat.div_mod a1 8 ltac:(lia)) as D8. pose proof (Nat.mod_upper_bound a1 8 ltac:(lia)) as M8.
    assert (G : N.of_nat a1 <= 8 * N.of_nat (a1 / 8) + 7) by lia.
    assert (G' : 8 * N.of_nat (a1 / 8) <= N.of_nat a1) by lia.
    destruct (uadd_inv _ _ _ _ E2) as [(_ & ->)|(L1 & _)]; [|wnum].
    destruct (umul_inv _ _ _ _ E3) as [(_ & ->)|(L1 & _)]; [|wnum].
    apply alloc_inv in E4. rewrite Nat2N.inj_mul, Nat2N.inj_add in E4. change (N.of_nat 2) with 2 in E4. change (N.of_nat 1) with 1 in E4.
    set (e := N.of_nat (a1 / 8)) in *. nia.
  Qed.
End Len.
