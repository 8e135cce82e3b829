(** * Whole compositions: [construct] against [build] *)
From Verif Require Export NewAgree.
From Verif Require Import Lemmas FloatTree Safety PropsSafetyProof RadersProof Radix4Proof SplitRadixProof.
From Coq Require Import NArith Lia.

Local Open Scope N_scope.
Local Arguments N.mul : simpl never.

Section Lengths.
  Context {W : width} {T : Type} {NT : Num T}.
  Variables (m : profile) (size : N).
  Hypothesis S4 : 4 <= size.

  Lemma by4 (n c : N) : n * size <= c + 6 * size -> n * 4 <= c + 24.
  Proof. intros H. destruct (N.le_gt_cases n 6); [lia|]. nia. Qed.
  Lemma split_no_wrap (dq dh D : Dht T) : N.of_nat (dht_len dq) < span / 2 -> N.of_nat (dht_len dh) < span / 2 ->
    split_new m size dq dh = Ok D -> N.of_nat (dht_len dq) * 4 < span.
  Proof.
    rewrite half_span. intros W1 W2 H. unfold split_new in H. bi H. bi H.
    unfold rassert in E0. destruct (Nat.eqb_spec (dht_len dh) a); [|discriminate].
    destruct (umul_inv _ _ _ _ E) as [(L & ->)|(L & _)]; wnum.
  Qed.

  Lemma construct_len t : forall d : Dht T, construct m size t = Ok d ->
    dht_len d = tree_len t /\ N.of_nat (dht_len d) <= 5 * unit_of W + 16.
  Proof.
    assert (S2 : 2 <= size) by lia. pose proof (unit_big W) as Ub.
    induction t; intros d E; cbn [construct tree_len] in *.
    all: try (injection E as <-; split; [reflexivity|cbn; lia]).
    all: try (bi E; specialize (IHt _ E0); destruct IHt as [IH B]).
    all: try (bi E; bi E; specialize (IHt1 _ E0); specialize (IHt2 _ E1); destruct IHt1 as [IH1 B1], IHt2 as [IH2 B2]).
    - apply naive_len in E as [E B]; auto. unfold most in B. split; [auto|].
      assert (N.of_nat (dht_len d) * size <= 8 * unit_of W + 6 * size) as G by lia. apply by4 in G. lia.
    - apply mixed_len in E as [E B]; auto; try wnum. unfold most in B. split; [congruence|].
      assert (N.of_nat (dht_len d) * size <= 16 * unit_of W + 6 * size) as G by lia. apply by4 in G. lia.
    - apply two_len in E as [E B']; auto. unfold most in B'. split; [congruence|].
      assert (N.of_nat (dht_len d) * size <= 16 * unit_of W + 6 * size) as G by lia. apply by4 in G. lia.
    - apply three_len in E as [E B']; auto. unfold most in B'. split; [congruence|].
      assert (N.of_nat (dht_len d) * size <= 12 * unit_of W + 6 * size) as G by lia. apply by4 in G. lia.
    - apply four_len in E as [E B']; auto. unfold most in B'. split; [congruence|].
      assert (N.of_nat (dht_len d) * size <= 16 * unit_of W + 6 * size) as G by lia. apply by4 in G. lia.
    - apply five_len in E as [E B']; auto. unfold most in B'. split; [congruence|].
      assert (N.of_nat (dht_len d) * size <= 20 * unit_of W + 6 * size) as G by lia. apply by4 in G. lia.
    - apply six_len in E as [E B']; auto. unfold most in B'. split; [congruence|].
      assert (N.of_nat (dht_len d) * size <= 16 * unit_of W + 6 * size) as G by lia. apply by4 in G. lia.
    - assert (Hw : N.of_nat (dht_len a) * 4 < span).
      { eapply split_no_wrap; [| |exact E]; rewrite half_span; lia. }
      apply split_len in E as (E & _ & B); auto. destruct (E Hw) as [_ E']. split; [congruence|]. unfold most in B.
      assert (N.of_nat (dht_len d) * size <= 16 * unit_of W + 6 * size) as G by lia. apply by4 in G. lia.
    - apply radix4_len in E as [E B]; auto. unfold most in B. split; [auto|].
      assert (N.of_nat (dht_len d) * size <= 8 * unit_of W + 6 * size) as G by lia. apply by4 in G. lia.
    - apply rader_len in E as [E B']; auto; [|wnum]. unfold most in B'. split; [congruence|].
      assert (N.of_nat (dht_len d) * size <= 8 * unit_of W + 6 * size) as G by lia. apply by4 in G. lia.
  Qed.
End Lengths.

Section Agree.
  Context {W : width} {T : Type} {NT : Num T}.
  Variables (m : profile) (size : N).
  Hypothesis S4 : 4 <= size.

  Definition tame (d : Dht T) : Prop :=
    N.of_nat (dht_inplace_scratch d) < 2 * unit_of W /\ N.of_nat (dht_oop_scratch d) < 2 * unit_of W /\
    ((0 < dht_len d)%nat -> (dht_inplace_scratch d <= dht_len d)%nat /\ dht_oop_scratch d = 0%nat).

  Lemma isize_unit : isize_max < 8 * unit_of W.
  Proof. destruct W; reflexivity. Qed.
  Lemma isize_ample : unit_of W <= isize_max.
  Proof. destruct W; discriminate. Qed.
  Lemma within_self b t : within b size t -> N.of_nat (tree_len t) * size <= b.
  Proof. destruct t; intros H; apply H. Qed.
  Lemma within_small t : within isize_max size t -> N.of_nat (tree_len t) < 2 * unit_of W.
  Proof. intros H. apply within_self in H. pose proof isize_unit. nia. Qed.
  Lemma within_mono b b' t : b <= b' -> within b size t -> within b' size t.
  Proof. intros L. induction t; cbn [within]; intuition lia. Qed.

  Lemma nxn_tame k (d : Dht T) app : N.of_nat (k * dht_len d) < 2 * unit_of W -> (0 < k)%nat -> tame d -> tame (nxn k d app).
  Proof.
    intros Hw K (A & B & C). pose proof (unit_big W) as Ub. unfold tame, nxn. cbn [dht_len dht_inplace_scratch dht_oop_scratch boilerplate_dht].
    destruct (Nat.ltb_spec (k * dht_len d) (dht_inplace_scratch d)) as [L|L].
    - assert (dht_len d = 0)%nat.
      { destruct (Nat.eq_dec (dht_len d) 0); auto. destruct C; nia. }
      rewrite H, Nat.mul_0_r. simpl. repeat split; auto; lia.
    - rewrite Nat.add_0_r. change (N.of_nat 0) with 0. repeat split; auto; lia.
  Qed.
  Lemma build_tame t : within isize_max size t -> forall d : Dht T, build m t = Ok d -> tame d.
  Proof.
    induction t; intros Hw d E; pose proof (unit_big W) as Ub; pose proof (within_small _ Hw) as Wl; pose proof (build_len m _ _ E) as L; cbn [build within tree_len] in *; destruct Hw as [_ Hw].
    all: try (injection E as <-; unfold tame; cbn; split; [lia|split; [lia|intros; split; [lia|reflexivity]]]).
    all: try (apply bind_inv in E; destruct E as (d1 & E1 & E)).
    all: try (destruct Hw as [W1 W2]; apply bind_inv in E; destruct E as (d2 & E2 & E)).
    - injection E as <-. unfold tame. cbn. unfold dht_naive in L. cbn in L. rewrite L. repeat split; auto; lia.
    - injection E as <-. destruct (IHt1 W1 _ E1) as (A1 & B1 & C1), (IHt2 W2 _ E2) as (A2 & B2 & C2). unfold tame, mixed_radix in *.
      cbn [dht_len dht_inplace_scratch dht_oop_scratch boilerplate_dht] in *.
      destruct (Nat.eq_dec (dht_len d1 * dht_len d2) 0) as [Z|Z].
      + rewrite Z. simpl. destruct (0 <? _)%nat, (0 <? _)%nat; split; lia.
      + assert (P1 : (0 < dht_len d1)%nat) by nia. assert (P2 : (0 < dht_len d2)%nat) by nia.
        destruct (C1 P1) as [X1 Y1]. destruct (C2 P2) as [X2 Y2].
        assert (Q1 : (dht_len d1 <= dht_len d1 * dht_len d2)%nat) by nia. assert (Q2 : (dht_len d2 <= dht_len d1 * dht_len d2)%nat) by nia.
        rewrite Y1. destruct (Nat.ltb_spec (dht_len d1 * dht_len d2) (dht_inplace_scratch d2)); [lia|].
        destruct (Nat.ltb_spec (dht_len d1 * dht_len d2) (Nat.max (dht_inplace_scratch d2) (dht_inplace_scratch d1))); [lia|].
        simpl Nat.max. rewrite Nat.add_0_r. change (N.of_nat 0) with 0. rewrite L. repeat split; auto; lia.
    - injection E as <-. apply nxn_tame; [|lia|auto]. change (dht_len (mixed_radix_2xn d1)) with (2 * dht_len d1)%nat in L. now rewrite L.
    - injection E as <-. apply nxn_tame; [|lia|auto]. change (dht_len (mixed_radix_3xn d1)) with (3 * dht_len d1)%nat in L. now rewrite L.
    - injection E as <-. apply nxn_tame; [|lia|auto]. change (dht_len (mixed_radix_4xn d1)) with (4 * dht_len d1)%nat in L. now rewrite L.
    - injection E as <-. apply nxn_tame; [|lia|auto]. change (dht_len (mixed_radix_5xn d1)) with (5 * dht_len d1)%nat in L. now rewrite L.
    - injection E as <-. apply nxn_tame; [|lia|auto]. change (dht_len (mixed_radix_6xn d1)) with (6 * dht_len d1)%nat in L. now rewrite L.
    - unfold split_radix in E. bi E. unfold rassert in E0. destruct (Nat.eqb_spec (dht_len d2) (dht_len d1 * 2)) as [H|]; [|discriminate].
      injection E as <-. unfold tame. cbn [dht_len dht_inplace_scratch dht_oop_scratch boilerplate_dht] in *.
      change (N.of_nat 0) with 0. repeat split; auto; lia.
    - destruct (radix4_base len) as [b db]. apply bind_inv in E. destruct E as (a' & E2 & E). injection E as <-. unfold tame. cbn in *. repeat split; auto; lia.
    - pose proof (IHt Hw _ E1) as (A & B & C). unfold raders in E. bi E. bi E. destruct a0. bi E. bi E. bi E. injection E as <-. unfold tame.
      cbn [dht_len dht_inplace_scratch dht_oop_scratch boilerplate_dht] in *.
      assert (P : (0 < dht_len d1)%nat).
      { destruct (dht_len d1); [|lia]. apply (f_equal (fun r => match r with Ok _ => true | _ => false end)) in E0. vm_compute in E0. discriminate E0. }
      destruct (C P) as [X Y]. destruct (Nat.leb_spec (dht_inplace_scratch d1) (dht_len d1)); [|lia].
      rewrite Nat.add_0_r. change (N.of_nat 0) with 0. repeat split; auto; lia.
  Qed.
  Lemma nxn_room (k : nat) (d : Dht T) : (0 < k)%nat -> N.of_nat (k * dht_len d) < 2 * unit_of W -> tame d -> room (N.of_nat k) d.
  Proof.
    intros K Hw (A & _). 
    rewrite Nat2N.inj_mul in Hw. split; wnum.
  Qed.

  (** equal, or an allocation was refused *)
  Definition or_panic {A} (r r' : res A) : Prop := r = r' \/ r = Panic.
  Lemma or_bind {A B} (r r' : res A) (k k' : A -> res B) : or_panic r r' -> (forall a, r' = Ok a -> or_panic (k a) (k' a)) -> or_panic (bind r k) (bind r' k').
  Proof. intros [-> | ->] H; [|now right]. destruct r'; cbn; auto; now left. Qed.
  Lemma or_alloc {A} b n (r r' : res A) : or_panic r r' -> or_panic (bind (alloc b n) (fun _ => r)) r'.
  Proof. intros H. unfold alloc, rassert. destruct (_ <=? _); cbn; auto. now right. Qed.
  Lemma or_refl {A} (r : res A) : or_panic r r.
  Proof. now left. Qed.

  Lemma construct_agrees t : within isize_max size t -> raders_fit t -> or_panic (@construct W T NT m size t) (build m t).
  Proof.
    pose proof (unit_big W) as Ub. induction t; intros Hw Fr; pose proof (within_small _ Hw) as Wl; pose proof Hw as W0; cbn [build construct within raders_fit tree_len] in *; destruct Hw as [_ Hw].
    2-10: apply or_refl.
    all: try (destruct Hw as [W1 W2], Fr as [F1 F2]; specialize (IHt1 W1 F1); specialize (IHt2 W2 F2); apply or_bind; [exact IHt1|]; intros d1 E1;
              apply or_bind; [exact IHt2|]; intros d2 E2;
              pose proof (build_len m _ _ E1) as L1; pose proof (build_len m _ _ E2) as L2;
              pose proof (build_tame _ W1 _ E1) as T1; pose proof (build_tame _ W2 _ E2) as T2; rewrite <- L1, <- ?L2 in Wl).
    all: try (assert (Fr' : raders_fit t) by (first [exact Fr|apply Fr]); specialize (IHt Hw Fr'); apply or_bind; [exact IHt|]; intros d E; pose proof (build_len m _ _ E) as L; pose proof (build_tame _ Hw _ E) as Tm; rewrite <- L in Wl).
    - unfold naive_new. apply or_alloc, or_refl.
    - pose proof (within_small _ W1). pose proof (within_small _ W2). rewrite Nat2N.inj_mul in Wl.
      rewrite mixed_eq; try (rewrite ?L1, ?L2; assumption); try assumption.
      + apply or_alloc, or_alloc, or_refl.
      + destruct T2. lia.
      + destruct T1 as (_ & T1 & _). lia.
    - rewrite two_eq by (apply (nxn_room 2); auto; lia). apply or_alloc, or_alloc, or_refl.
    - rewrite three_eq by (apply (nxn_room 3); auto; lia). apply or_alloc, or_alloc, or_refl.
    - rewrite four_eq by (apply (nxn_room 4); auto; lia). apply or_alloc, or_alloc, or_refl.
    - rewrite five_eq by (apply (nxn_room 5); auto; lia). apply or_alloc, or_alloc, or_refl.
    - rewrite six_eq by (apply (nxn_room 6); auto; lia). apply or_alloc, or_alloc, or_refl.
    - rewrite split_eq by (rewrite Nat2N.inj_mul in Wl; exact Wl).
      unfold split_radix. destruct (rassert _) as [[]| | |]; [|apply or_refl..]. cbn [bind]. apply or_alloc, or_refl.
    - rewrite radix4_eq by exact Wl. unfold radix4. destruct (rassert _) as [[]| | |]; [|apply or_refl..]. cbn [bind]. apply or_alloc, or_refl.
    - destruct Tm as (A & B & C). destruct (rader_eq m size d) as [->| ->]; [rewrite L; exact (proj2 Fr)| |lia|apply or_refl|now right]. rewrite Nat2N.inj_add in Wl. lia.
  Qed.

  (** every composition is safe Rust code *)
  Definition anything : allowed T := {| al_user := fun _ => False; al_radix4 := fun _ => True; al_rader := fun _ => True |}.
  Lemma build_any t : forall d : Dht T, build m t = Ok d -> assembled m anything d.
  Proof.
    induction t; intros d E; cbn [build] in *;
      try (destruct (build m t) as [d1| | |] eqn:B; cbn [bind] in E; try discriminate);
      try (destruct (build m t1) as [d1| | |] eqn:B1; cbn [bind] in E; try discriminate;
           destruct (build m t2) as [d2| | |] eqn:B2; cbn [bind] in E; try discriminate).
    1-10: injection E as <-; auto using as_naive, as_bf1, as_bf2, as_bf3, as_bf4, as_bf5, as_bf6, as_bf8, as_bf9, as_bf16.
    - injection E as <-. apply as_mixed; auto.
    - injection E as <-. apply as_2xn; auto.
    - injection E as <-. apply as_3xn; auto.
    - injection E as <-. apply as_4xn; auto.
    - injection E as <-. apply as_5xn; auto.
    - injection E as <-. apply as_6xn; auto.
    - eapply as_split; [| |exact E]; auto.
    - eapply as_radix4; [exact E|]. exact I.
    - eapply as_rader; [apply IHt; auto|exact E|exact I].
  Qed.
  Lemma process_length (t : tree) (d : Dht T) b b' : build m t = Ok d -> dht_process d b = Ok b' -> length b' = length b.
  Proof.
    intros E P. assert (S : safe_rust d) by (apply (C17_proof m anything); [intros ? []|now apply (build_any t)]).
    unfold dht_process in P. bi P. destruct a as [x y]. injection P as <-. eapply (proj2 (sr_inplace d S _ _)) in E0. apply E0.
  Qed.

  Hypothesis Sb : size <= unit_of W.
  Lemma construct_same t : within (unit_of W) size t -> raders_fit t -> @construct W T NT m size t = build m t.
  Proof.
    
    pose proof (unit_big W) as Ub. induction t; intros Hw Fr;
      pose proof (within_mono (unit_of W) isize_max _ ltac:(pose proof isize_ample; lia) Hw) as WI;
      pose proof (within_small _ WI) as Wl; pose proof (within_self _ _ Hw) as Wb; cbn [build construct within raders_fit tree_len] in *; destruct Hw as [_ Hw]; destruct WI as [_ WI].
    2-10: reflexivity.
    all: try (destruct Hw as [W1 W2], WI as [V1 V2], Fr as [F1 F2]; rewrite (IHt1 W1 F1), (IHt2 W2 F2);
              destruct (build m t1) as [d1| | |] eqn:E1; [|reflexivity..]; cbn [bind]; destruct (build m t2) as [d2| | |] eqn:E2; [|reflexivity..]; cbn [bind];
              pose proof (build_len m _ _ E1) as L1; pose proof (build_len m _ _ E2) as L2;
              pose proof (build_tame _ V1 _ E1) as T1; pose proof (build_tame _ V2 _ E2) as T2;
              pose proof (within_small _ V1) as X1; pose proof (within_small _ V2) as X2;
              pose proof (within_self _ _ W1) as Y1; pose proof (within_self _ _ W2) as Y2;
              rewrite <- L1, <- ?L2 in *).
    all: try (assert (Fr' : raders_fit t) by (first [exact Fr|apply Fr]); rewrite (IHt Hw Fr'); destruct (build m t) as [d| | |] eqn:E; [|reflexivity..]; cbn [bind];
              pose proof (build_len m _ _ E) as L; pose proof (build_tame _ WI _ E) as Tm; pose proof (within_self _ _ Hw) as Y; rewrite <- L in *;
              pose proof (half_ge (dht_len d)) as G).
    - unfold naive_new. rewrite alloc_ok by (wnum). reflexivity.
    - rewrite Nat2N.inj_mul in Wl, Wb.
      rewrite mixed_eq; try assumption; [|destruct T2; lia|destruct T1 as (_ & T1 & _); lia].
      pose proof (half_ge (dht_len d1)) as G1. pose proof (half_ge (dht_len d2)) as G2.
      assert (P : 4 * (N.of_nat (dht_len d1 / 2) * N.of_nat (dht_len d2 / 2)) <= N.of_nat (dht_len d1) * N.of_nat (dht_len d2)) by nia.
      pose proof (N.mul_le_mono_r _ _ size P). pose proof (N.mul_le_mono_r _ _ size G1). pose proof (N.mul_le_mono_r _ _ size G2).
      rewrite alloc_ok. 2: { rewrite Nat2N.inj_mul, !Nat2N.inj_add. change (N.of_nat 1) with 1. wnum. }
      cbn [bind]. rewrite alloc_ok. 2: { rewrite !Nat.add_sub, Nat2N.inj_mul. wnum. }
      reflexivity.
    - rewrite two_eq by (apply (nxn_room 2); auto; lia). pose proof (N.mul_le_mono_r _ _ size G).
      rewrite alloc_ok by (wnum). reflexivity.
    - rewrite three_eq by (apply (nxn_room 3); auto; lia). pose proof (N.mul_le_mono_r _ _ size G).
      rewrite alloc_ok by (wnum). cbn [bind]. rewrite alloc_ok by (wnum). reflexivity.
    - rewrite four_eq by (apply (nxn_room 4); auto; lia). pose proof (N.mul_le_mono_r _ _ size G).
      rewrite alloc_ok by (wnum). cbn [bind]. rewrite alloc_ok by (wnum). reflexivity.
    - rewrite five_eq by (apply (nxn_room 5); auto; lia). pose proof (N.mul_le_mono_r _ _ size G).
      rewrite alloc_ok by (wnum). cbn [bind]. rewrite alloc_ok by (wnum). reflexivity.
    - rewrite six_eq by (apply (nxn_room 6); auto; lia). pose proof (N.mul_le_mono_r _ _ size G).
      rewrite alloc_ok by (wnum). cbn [bind]. rewrite alloc_ok by (wnum). reflexivity.
    - rewrite split_eq by (rewrite Nat2N.inj_mul in Wl; exact Wl).
      unfold split_radix. destruct (rassert _) as [[]| | |]; [|reflexivity..]. cbn [bind].
      assert (G : N.of_nat (dht_len d1 * 4 / 8) <= N.of_nat (dht_len d1)).
      { pose proof (Nat.div_mod (dht_len d1 * 4) 8 ltac:(lia)). lia. }
      pose proof (N.mul_le_mono_r _ _ size G). rewrite alloc_ok; [reflexivity|]. wnum.
    - rewrite radix4_eq by exact Wl. unfold radix4. destruct (rassert _) as [[]| | |]; [|reflexivity..]. cbn [bind].
      rewrite alloc_ok by (wnum). reflexivity.
    - destruct Tm as (A & B & C). rewrite Nat2N.inj_add in Wl. destruct (Nat.eq_dec (dht_len d) 0) as [Z|Z].
      + unfold raders_new, raders. cbv zeta. rewrite Z. rewrite uadd_ok by wnum. cbn [bind].
        assert (Q : rassert (miller_rabin (N.of_nat (0 + 1))) = Panic) by (vm_compute; reflexivity). rewrite !Q. cbn [bind]. exact eq_refl.
      + destruct C as [C _]; [lia|]. assert (C' : N.of_nat (dht_inplace_scratch d) <= N.of_nat (dht_len d)) by lia.
        pose proof (N.mul_le_mono_r _ _ size C') as C2. 
        apply rader_same; try lia; [exact (proj2 Fr)|].
        intros. eapply process_length; eauto.
  Qed.
End Agree.
