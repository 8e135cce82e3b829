(** * Proofs of C38 *)
From Verif Require Import Lemmas Contract NxnProof NxnInst MixedRadixProof MixedContract Radix4Proof NxnReal Radix4Real.
From Verif Require Export TreeProof.
From Coq Require Import Lia.

(** two instances of the same length that do the same to every chunk *)
Definition same_transform {T} (d1 d2 : Dht T) : Prop :=
  dht_len d1 = dht_len d2 /\ exists f, transforms d1 f /\ transforms d2 f.

Section P.
  Context {T : Type} {NT : Num T}.
  Lemma same_of (d1 d2 : Dht T) f g : dht_len d1 = dht_len d2 -> dht_ok d1 f -> dht_ok d2 g ->
    (forall x, length x = dht_len d1 -> f x = g x) -> same_transform d1 d2.
  Proof.
    intros L O1 O2 E. split; auto. exists g. split; [|exact (proj1 (transforms_ok _ _) O2)].
    exact (proj1 (transforms_ok _ _) (dht_ok_ext _ _ _ O1 E)).
  Qed.
  Lemma C38_3_proof (d : Dht T) : (exists f, transforms d f) -> dht_inplace_scratch d <= 3 * dht_len d -> dht_oop_scratch d = 0 ->
    same_transform (mixed_radix_3xn d) (mixed_radix butterfly3 d).
  Proof.
    intros [f F] F1 F2. pose proof (proj2 (transforms_ok _ _) F) as O.
    assert (Ob : dht_ok butterfly3 (bf_fun (bf3_contig bf3_new))) by (apply butterfly_ok; [lia|apply bf3_kernel]).
    eapply same_of; [reflexivity|apply (mixed_radix_3xn_ok d f O (conj F1 F2))
      |apply (mixed_radix_ok butterfly3 d _ f Ob O)|].
    intros x _. apply radix3_fun_mixed.
  Qed.
  Lemma C38_5_proof (d : Dht T) : (exists f, transforms d f) -> dht_inplace_scratch d <= 5 * dht_len d -> dht_oop_scratch d = 0 ->
    same_transform (mixed_radix_5xn d) (mixed_radix butterfly5 d).
  Proof.
    intros [f F] F1 F2. pose proof (proj2 (transforms_ok _ _) F) as O.
    assert (Ob : dht_ok butterfly5 (bf_fun (bf5_contig bf5_new))) by (apply butterfly_ok; [lia|apply bf5_kernel]).
    eapply same_of; [reflexivity|apply (mixed_radix_5xn_ok d f O (conj F1 F2))
      |apply (mixed_radix_ok butterfly5 d _ f Ob O)|].
    intros x _. apply radix5_fun_mixed.
  Qed.
  Lemma C38_6_proof (d : Dht T) : (exists f, transforms d f) -> dht_inplace_scratch d <= 6 * dht_len d -> dht_oop_scratch d = 0 ->
    same_transform (mixed_radix_6xn d) (mixed_radix butterfly6 d).
  Proof.
    intros [f F] F1 F2. pose proof (proj2 (transforms_ok _ _) F) as O.
    assert (Ob : dht_ok butterfly6 (bf_fun (bf6_contig bf3_new))) by (apply butterfly_ok; [lia|apply bf6_kernel]).
    eapply same_of; [reflexivity|apply (mixed_radix_6xn_ok d f O (conj F1 F2))
      |apply (mixed_radix_ok butterfly6 d _ f Ob O)|].
    intros x _. apply radix6_fun_mixed.
  Qed.

  Lemma r4_zero_layers b fb (x : list T) : length x = b -> radix4_algo b 0 fb x = fb x.
  Proof.
    intros <-. unfold radix4_algo. cbn [block_fun prep_fun]. f_equal. symmetry. apply list_tab.
  Qed.
  Let small k (d : Dht T) : dht_len d = 2 ^ k -> r4_layers k = 0 -> r4_base k = 2 ^ k -> dht_ok d (r4_basefun k) ->
    exists D, radix4 (2 ^ k) = Ok D /\ same_transform D d.
  Proof.
    intros L E0 E1 O. destruct (radix4_ok k) as (D & E & O' & _ & L' & _). exists D. split; auto.
    eapply same_of; [congruence|exact O'|exact O|]. intros x Hx. unfold radix4_len_fun. rewrite E0, E1. apply r4_zero_layers. congruence.
  Qed.
  Ltac bok k := apply butterfly_ok; [lia|apply k].
  Lemma C38_radix4_base_proof :
    (exists D, radix4 1 = Ok D /\ same_transform D butterfly1) /\
    (exists D, radix4 2 = Ok D /\ same_transform D butterfly2) /\
    (exists D, radix4 4 = Ok D /\ same_transform D butterfly4) /\
    (exists D, radix4 8 = Ok D /\ same_transform D butterfly8) /\
    (exists D, radix4 16 = Ok D /\ same_transform D butterfly16).
  Proof.
    refine (conj (small 0 butterfly1 eq_refl eq_refl eq_refl _) (conj (small 1 butterfly2 eq_refl eq_refl eq_refl _)
      (conj (small 2 butterfly4 eq_refl eq_refl eq_refl _) (conj (small 3 butterfly8 eq_refl eq_refl eq_refl _) (small 4 butterfly16 eq_refl eq_refl eq_refl _))))).
    - apply butterfly1_ok.
    - bok @bf2_kernel.
    - bok @bf4_kernel.
    - bok @bf8_kernel.
    - bok @bf16_kernel.
  Qed.
  Let one k (d : Dht T) b fb : dht_ok d fb -> dht_len d = b -> dht_inplace_scratch d = 0 -> dht_oop_scratch d = 0 ->
    r4_base k = b -> r4_layers k = 1 -> r4_basefun k = fb ->
    exists D, radix4 (2 ^ k) = Ok D /\ same_transform D (mixed_radix_4xn d).
  Proof.
    intros O L S1 S2 E1 E2 E3. destruct (radix4_ok k) as (D & E & O' & _ & L' & _). exists D. split; auto.
    eapply same_of; [|exact O'|apply (mixed_radix_4xn_ok d fb O); split; lia|].
    - rewrite L', r4_len, E1, E2. cbn [dht_len mixed_radix_4xn nxn boilerplate_dht]. simpl (4 ^ 1). lia.
    - intros x Hx. unfold radix4_len_fun. rewrite E1, E2, E3. unfold radix4_fun, nxn_fun. rewrite L. apply radix4_one_layer.
  Qed.
  Lemma C38_radix4_layer_proof :
    (exists D, radix4 32 = Ok D /\ same_transform D (mixed_radix_4xn butterfly8)) /\
    (exists D, radix4 64 = Ok D /\ same_transform D (mixed_radix_4xn butterfly16)).
  Proof.
    split.
    - eapply (one 5); try reflexivity. bok @bf8_kernel.
    - eapply (one 6); try reflexivity. bok @bf16_kernel.
  Qed.
  Lemma C38_case_proof : let d := dht_naive 7 in
    (exists f, transforms d f) /\ dht_inplace_scratch d <= 3 * dht_len d /\ dht_oop_scratch d = 0.
  Proof.
    split; [exact (ex_intro _ _ (proj1 (transforms_ok _ _) (proj1 (naive_ok 7))))|]. cbn [dht_inplace_scratch dht_naive boilerplate_dht_oop dht_len dht_oop_scratch]. lia.
  Qed.
End P.
