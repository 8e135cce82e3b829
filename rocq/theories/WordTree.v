(** * Compositions whose Rader indices do not fit, in debug builds *)
From Verif Require Import PropsProcProof PropsParamProof PropsWordProof WordProof NewProof FloatSpec.
From Coq Require Import NArith Lia Classical_Prop List Reals.
Import ListNotations.

Lemma umul_debug {W : width} a b v : umul Debug a b = Ok v -> v = a * b.
Proof. intros H. apply umul_inv in H. destruct H as [(_ & ->)|(_ & H & _)]; [reflexivity|discriminate]. Qed.
Lemma uadd_debug {W : width} a b v : uadd Debug a b = Ok v -> v = a + b.
Proof. intros H. apply uadd_inv in H. destruct H as [(_ & ->)|(_ & H & _)]; [reflexivity|discriminate]. Qed.

Ltac peel :=
  repeat match goal with
  | N : never_returns ?d, E : dht_process_with_scratch ?d _ _ = Ok _ |- _ => exfalso; exact (proj1 N _ _ _ E)
  | N : never_returns ?d, E : dht_process_oop ?d _ _ _ = Ok _ |- _ => exfalso; exact (proj2 N _ _ _ _ E)
  | E : bind _ _ = Ok _ |- _ => let a := fresh "a" in let F := fresh "F" in apply bind_inv in E; destruct E as (a & F & E); cbv beta zeta in E
  | E : match ?x with (_, _) => _ end = Ok _ |- _ => destruct x
  | E : (if ?c then bind _ _ else bind _ _) = Ok _ |- _ => destruct c
  end.

Section Tree.
  Context {T : Type} {NT : Num T}.
  Notation run := (@run_tree W32 T NT Debug).
  Lemma mixed_dead size (dw dh D : Dht T) : @mixed_run W32 T NT Debug size dw dh = Ok D ->
    dht_len D = dht_len dw * dht_len dh /\ (0 < dht_len D -> never_returns dw \/ never_returns dh -> never_returns D).
  Proof.
    unfold mixed_run. cbv zeta. intros E. do 8 (apply bind_inv in E; destruct E as (? & ? & E)). injection E as <-.
    cbn [dht_len boilerplate_dht]. split; [now apply (umul_debug (W := W32))|]. intros L [N|N]; (apply boilerplate_never; [exact L|..]).
    - intros c scr y _ _ Ey. unfold mixed_inplace_run in Ey. peel.
    - intros c u scr y _ _ _ Ey. unfold mixed_oop_run in Ey. peel.
    - intros c scr y _ _ Ey. unfold mixed_inplace_run in Ey. peel.
    - intros c u scr y _ _ _ Ey. unfold mixed_oop_run in Ey. peel.
  Qed.
  Lemma nxn_dead size k cap table ap (d D : Dht T) : @nxn_run W32 T Debug size k cap table ap d = Ok D ->
    dht_len D = k * dht_len d /\ (0 < dht_len D -> never_returns d -> never_returns D).
  Proof.
    unfold nxn_run. cbv zeta. intros E. do 6 (apply bind_inv in E; destruct E as (? & ? & E)). injection E as <-.
    cbn [dht_len boilerplate_dht]. split; [now apply (umul_debug (W := W32))|]. intros L N. apply boilerplate_never; [exact L|..].
    - intros c scr y _ _ Ey. unfold nxn_inplace_run in Ey. peel.
    - intros c u scr y _ _ _ Ey. unfold nxn_oop_run in Ey. peel.
  Qed.
  Lemma split_dead size (dq dh D : Dht T) : @split_run W32 T NT Debug size dq dh = Ok D ->
    dht_len D = dht_len dq * 4 /\ dht_len dh = dht_len dq * 2 /\ (0 < dht_len D -> never_returns dq \/ never_returns dh -> never_returns D).
  Proof.
    unfold split_run. cbv zeta. intros E. apply bind_inv in E; destruct E as (db & Ed & E). apply bind_inv in E; destruct E as (u & Eu & E).
    apply bind_inv in E; destruct E as (len & El & E).
    do 4 (apply bind_inv in E; destruct E as (? & ? & E)). injection E as <-.
    apply (umul_debug (W := W32)) in Ed, El. unfold rassert in Eu. destruct (Nat.eqb_spec (dht_len dh) db); [|discriminate].
    cbn [dht_len boilerplate_dht]. split; [exact El|]. split; [lia|]. intros L [N|N]; (apply boilerplate_never; [exact L|..]).
    - intros c scr y _ _ Ey. unfold split_inplace_run in Ey. peel.
    - intros c v scr y _ _ _ Ey. unfold split_oop_run in Ey. peel.
    - intros c scr y _ _ Ey. unfold split_inplace_run in Ey. peel.
    - intros c v scr y _ _ _ Ey. unfold split_oop_run in Ey. peel.
  Qed.
  Lemma rader_dead size (d D : Dht T) : (4 <= size)%N -> @raders_run W32 T NT Debug size d = Ok D ->
    dht_len D = dht_len d + 1 /\ 0 < dht_len d /\ ~ never_returns d /\ (~ @rader_fits W32 (N.of_nat (dht_len d + 1)) -> never_returns D).
  Proof.
    intros S E. pose proof E as E'. unfold raders_run in E. cbv zeta in E. apply bind_inv in E; destruct E as (len & El & E).
    apply bind_inv in E; destruct E as (u & Eu & E). apply bind_inv in E; destruct E as ([r ri] & Er & E). apply bind_inv in E; destruct E as (u2 & Ea & E).
    apply bind_inv in E; destruct E as (x & Ex & E). apply bind_inv in E; destruct E as (u3 & Es & E). apply bind_inv in E; destruct E as (y & Ey & E).
    do 4 (apply bind_inv in E; destruct E as (? & ? & E)). injection E as E. apply (uadd_debug (W := W32)) in El. subst len.
    split; [rewrite <- E; reflexivity|]. split.
    - unfold rassert in Eu. destruct (miller_rabin _) eqn:M; [|discriminate]. apply RootProofs.miller_rabin_ok in M.
      destruct (dht_len d); [|lia]. exfalso. cbn in M. destruct M as [M _]. lia.
    - split.
      + intros N. unfold dht_process in Ey. peel.
      + intros F. apply (alloc_inv (W := W32)) in Ea. apply (debug_dead T NT size d D); auto.
        * change (@NewProof.most W32) with 2147483647%N in Ea. change (2 ^ 31)%N with 2147483648%N. nia.
        * replace (N.of_nat (dht_len d) + 1)%N with (N.of_nat (dht_len d + 1)) by lia. exact F.
  Qed.

  Lemma tree_dead size t : (4 <= size)%N -> forall D, run size t = Ok D ->
    dht_len D = tree_len t /\ (0 < dht_len D -> ~ @raders_fit W32 t -> never_returns D).
  Proof.
    intros S. induction t; intros D E; cbn [run_tree tree_len raders_fit] in *;
      try (injection E as <-; split; [reflexivity|intros _ F; exfalso; apply F; exact I]).
    - unfold naive_run in E. apply bind_inv in E. destruct E as (? & _ & E). injection E as <-. split; [|intros _ F; exfalso; apply F; exact I].
      cbn [dht_len boilerplate_dht_oop]. unfold naive_twiddles. now rewrite map_length, seq_length.
    - apply bind_inv in E. destruct E as (dw & Ew & E). apply bind_inv in E. destruct E as (dh & Eh & E).
      destruct (IHt1 _ Ew) as [L1 N1]. destruct (IHt2 _ Eh) as [L2 N2]. destruct (mixed_dead _ _ _ _ E) as [L N].
      split; [rewrite L, L1, L2; reflexivity|]. intros P F. apply N; auto. rewrite L in P. apply not_and_or in F. destruct F as [F|F]; [left; apply N1|right; apply N2]; auto; nia.
    - apply bind_inv in E. destruct E as (d & Ed & E). destruct (IHt _ Ed) as [L1 N1]. destruct (nxn_dead _ _ _ _ _ _ _ E) as [L N].
      split; [rewrite L, L1; reflexivity|]. intros P F. apply N; auto. apply N1; auto. rewrite L in P. lia.
    - apply bind_inv in E. destruct E as (d & Ed & E). destruct (IHt _ Ed) as [L1 N1]. destruct (nxn_dead _ _ _ _ _ _ _ E) as [L N].
      split; [rewrite L, L1; reflexivity|]. intros P F. apply N; auto. apply N1; auto. rewrite L in P. lia.
    - apply bind_inv in E. destruct E as (d & Ed & E). destruct (IHt _ Ed) as [L1 N1]. destruct (nxn_dead _ _ _ _ _ _ _ E) as [L N].
      split; [rewrite L, L1; reflexivity|]. intros P F. apply N; auto. apply N1; auto. rewrite L in P. lia.
    - apply bind_inv in E. destruct E as (d & Ed & E). destruct (IHt _ Ed) as [L1 N1]. destruct (nxn_dead _ _ _ _ _ _ _ E) as [L N].
      split; [rewrite L, L1; reflexivity|]. intros P F. apply N; auto. apply N1; auto. rewrite L in P. lia.
    - apply bind_inv in E. destruct E as (d & Ed & E). destruct (IHt _ Ed) as [L1 N1]. destruct (nxn_dead _ _ _ _ _ _ _ E) as [L N].
      split; [rewrite L, L1; reflexivity|]. intros P F. apply N; auto. apply N1; auto. rewrite L in P. lia.
    - apply bind_inv in E. destruct E as (dq & Eq & E). apply bind_inv in E. destruct E as (dh & Eh & E).
      destruct (IHt1 _ Eq) as [L1 N1]. destruct (IHt2 _ Eh) as [L2 N2]. destruct (split_dead _ _ _ _ E) as (L & L' & N).
      split; [rewrite L, L1; reflexivity|]. intros P F. apply N; auto. rewrite L in P. apply not_and_or in F. destruct F as [F|F]; [left; apply N1|right; apply N2]; auto; lia.
    - unfold radix4_run in E. apply bind_inv in E. destruct E as (? & _ & E). destruct (radix4_base len) as [bl bd].
      do 3 (apply bind_inv in E; destruct E as (? & _ & E)). injection E as <-. split; [reflexivity|intros _ F; exfalso; apply F; exact I].
    - apply bind_inv in E. destruct E as (d & Ed & E). destruct (IHt _ Ed) as [L1 N1]. destruct (rader_dead _ _ _ S E) as (L & P & Nd & N).
      split; [rewrite L, L1; reflexivity|]. intros _ F. apply N. intros G. apply F. split.
      + apply NNPP. intros F'. apply Nd, N1; auto.
      + rewrite <- L1. exact G.
  Qed.
End Tree.

Lemma C77_tree_proof T (NT : Num T) size t D : (4 <= size)%N -> @run_tree W32 T NT Debug size t = Ok D -> 0 < dht_len D ->
  @raders_fit W32 t \/ never_returns D.
Proof. intros S E L. destruct (classic (@raders_fit W32 t)) as [F|F]; [now left|right]. now apply (tree_dead size t S D E). Qed.
Lemma C77_same_proof T (NT : Num T) size t D : (4 <= size <= 2 ^ 28)%N -> within (2 ^ 28) size t -> @run_tree W32 T NT Debug size t = Ok D -> 0 < dht_len D ->
  @run_tree W64 T NT Debug size t = Ok D \/ never_returns D.
Proof.
  intros [S S'] B E L. destruct (C77_tree_proof T NT size t D S E L) as [F|F]; [left|now right].
  exact (eq_trans (eq_sym (C77_targets_proof T NT Debug size t S S' B F)) E).
Qed.
Lemma C77_same_case_proof : let t := Rader (Two (Naive 26)) in within (2 ^ 28) 8 t /\
  exists D, @run_tree W32 R (RNum rh) Debug 8 t = Ok D /\ dht_len D = 53 /\ ~ never_returns D.
Proof.
  destruct C77_case_proof as (_ & _ & _ & B & F & d & E). intros t. split; [exact B|]. exists d.
  assert (Er : @run_tree W32 R (RNum rh) Debug 8 t = Ok d) by (rewrite (C55_complete_proof W32); auto; discriminate).
  assert (S : (4 <= 8)%N) by discriminate.
  pose proof (proj1 (@tree_dead R (RNum rh) 8%N t S d Er)) as L. change (tree_len t) with 53 in L. split; [exact Er|]. split; [exact L|].
  intros [N _]. assert (I : in_range t) by (split; [exact Logic.I|discriminate]).
  destruct (tree_transforms R (RNum rh) Debug t d I E) as [f G]. destruct G as [_ G _ _].
  destruct (G [repeat 0%R (dht_len d)] (repeat 0%R (dht_inplace_scratch d))) as (s' & Es & _).
  - rewrite L. lia.
  - split; [discriminate|constructor; [apply repeat_length|constructor]].
  - rewrite repeat_length. lia.
  - exact (N _ _ _ Es).
Qed.
