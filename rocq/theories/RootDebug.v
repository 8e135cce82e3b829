(** * Debug builds: the search for a primitive root overflows above 2^32 *)
From Verif Require Export RootProofs Api FloatSpec NewSpec.
From Verif Require Import MathUtils MathProofs Raders RadersProof FloatTree PropsMathProof.
From Coq Require Import NArith List Lia.
Import ListNotations.
Local Open Scope N_scope.

Lemma steps_pres {S R : Type} (P : S -> Prop) (Q : R -> Prop) (f : S -> res (S + R)) :
  (forall s, P s -> match f s with Ok (inl s') => P s' | Ok (inr x) => Q x | _ => True end) ->
  forall n s, P s -> match steps n f s with Ok (inl s') => P s' | Ok (inr x) => Q x | _ => True end.
Proof.
  intros H. induction n as [|n IH]; intros s Ps; [exact (H s Ps)|]. cbn [steps]. specialize (IH s Ps) as I1.
  destruct (steps n f s) as [[s'|x]| | |]; cbn [bind]; auto. now apply IH.
Qed.
Lemma steps_panic {S R : Type} (f : S -> res (S + R)) s n k : steps n f s = Panic -> steps (k + n) f s = Panic.
Proof. intros H. induction k as [|k IH]; auto. cbn [Nat.add steps]. now rewrite IH. Qed.

Definition exp_step (m : profile) (modulo : N) : N * N * N -> res (N * N * N + N) :=
  fun '(base, exponent, result) =>
    if (0 <? exponent)%N then
      result <- (if N.odd exponent then
                   v <- u64 m (result * base) ;; u64_rem v modulo
                 else Ok result) ;;
      let exponent := (exponent / 2)%N in
      v <- u64 m (base * base) ;;
      base <- u64_rem v modulo ;;
      Ok (inl (base, exponent, result))
    else Ok (inr result).
Lemma exp_step_ok m p b e r : 0 < e -> b * b < two64 -> b * b < p -> r * b < two64 -> r * b < p ->
  exists r', exp_step m p (b, e, r) = Ok (inl (b * b, e / 2, r')) /\ (r' = r \/ r' = r * b).
Proof.
  intros He B1 B2 R1 R2. unfold exp_step. apply N.ltb_lt in He. rewrite He. unfold u64, u64_rem.
  apply N.ltb_lt in B1, R1. rewrite B1. rewrite R1. cbn [bind]. destruct (N.eqb_spec p 0) as [->|P0]; [lia|].
  rewrite (N.mod_small (b * b)), (N.mod_small (r * b)) by auto. destruct (N.odd e); cbn [bind]; eauto.
Qed.
Lemma exp_two_overflows p e : 2 ^ 32 < p -> 32 <= e -> modular_exponent Debug 2 e p = Panic.
Proof.
  change (2 ^ 32) with 4294967296. intros P E. unfold modular_exponent. fold (exp_step Debug p). unfold while.
  assert (H : steps 3 (exp_step Debug p) (2, e, 1) = Panic).
  2: { change 64%nat with (61 + 3)%nat. now rewrite (steps_panic _ _ 3 61 H). }
  assert (E1 : e / 2 / 2 / 2 / 2 / 2 = e / 32) by (rewrite !N.div_div by lia; reflexivity).
  assert (E5 : 0 < e / 32) by (apply N.div_str_pos; lia).
  assert (L1 : 0 < e / 2) by (apply N.div_str_pos; lia).
  assert (L2 : 0 < e / 2 / 2) by (rewrite N.div_div by lia; apply N.div_str_pos; lia).
  assert (L3 : 0 < e / 2 / 2 / 2) by (rewrite !N.div_div by lia; apply N.div_str_pos; lia).
  assert (L4 : 0 < e / 2 / 2 / 2 / 2) by (rewrite !N.div_div by lia; apply N.div_str_pos; lia).
  destruct (exp_step_ok Debug p 2 e 1) as (r1 & S1 & R1); unfold two64; try lia. change (2 * 2) with 4 in S1.
  destruct (exp_step_ok Debug p 4 (e / 2) r1) as (r2 & S2 & R2); unfold two64; try lia. change (4 * 4) with 16 in S2.
  destruct (exp_step_ok Debug p 16 (e / 2 / 2) r2) as (r3 & S3 & R3); unfold two64; try lia. change (16 * 16) with 256 in S3.
  destruct (exp_step_ok Debug p 256 (e / 2 / 2 / 2) r3) as (r4 & S4 & R4); unfold two64; try lia. change (256 * 256) with 65536 in S4.
  destruct (exp_step_ok Debug p 65536 (e / 2 / 2 / 2 / 2) r4) as (r5 & S5 & R5); unfold two64; try lia. change (65536 * 65536) with 4294967296 in S5.
  assert (S6 : exp_step Debug p (4294967296, e / 2 / 2 / 2 / 2 / 2, r5) = Panic).
  { rewrite E1. unfold exp_step. apply N.ltb_lt in E5. rewrite E5.
    destruct (N.odd (e / 32)); cbn [bind]; [|reflexivity].
    unfold u64 at 1. destruct (r5 * 4294967296 <? two64); cbn [bind]; [|reflexivity]. unfold u64_rem at 1. destruct (p =? 0); reflexivity. }
  cbn [steps bind]. rewrite S1. cbn [bind]. rewrite S2. cbn [bind]. rewrite S3. cbn [bind]. rewrite S4. cbn [bind].
  rewrite S5. cbn [bind]. rewrite S6. reflexivity.
Qed.

Lemma even_factors m n l : n mod 2 = 0 -> distinct_prime_factors m n = Ok l -> exists l', l = 2 :: l'.
Proof.
  intros E. unfold distinct_prime_factors. rewrite E. cbn [N.eqb]. destruct (strip 2 n) as [n'| | |]; try discriminate. cbn [bind].
  destruct (1 <? n'); cbn [bind]; [|intros H; injection H as <-; eauto].
  unfold while. pose proof (steps_pres (fun st => exists l', snd st = 2 :: l') (fun x => exists l', snd x = 2 :: l') (trial_step m)) as G.
  specialize (G ltac:(idtac; intros [[[a b] c] d] [l' Hl]; cbn [snd] in Hl; subst d; unfold trial_step;
    destruct (b <? c); [|cbn; eauto]; destruct (u64_rem a b); cbn [bind]; auto;
    destruct (a0 =? 0); cbn [bind]; [destruct (strip b a); cbn [bind]; auto|];
    destruct (u64 m (b + 2)); cbn [bind snd app]; eauto) 64%nat (n', 3, sqrt_limit n', [2]) ltac:(cbn; eauto)).
  destruct (steps 64 (trial_step m) (n', 3, sqrt_limit n', [2])) as [[s|[a b]]| | |]; cbn [bind]; try discriminate.
  destruct G as [l' Hl]. cbn [snd] in Hl. subst b. destruct (1 <? a); intros H; injection H as <-; cbn [app]; eauto.
Qed.

Lemma root_overflows p : nprime p -> 2 ^ 32 < p -> p < 2 ^ 64 -> primitive_root Debug p = Panic.
Proof.
  intros Pp L U. assert (Odd : (p - 1) mod 2 = 0).
  { destruct (N.Even_or_Odd p) as [[k K]|[k K]].
    - exfalso. destruct Pp as [_ D]. change (2 ^ 32) with 4294967296 in L. destruct (D 2); [exists k|..]; lia.
    - rewrite K. replace (2 * k + 1 - 1) with (k * 2) by lia. apply N.mod_mul. discriminate. }
  assert (P1 : 1 <= p - 1 /\ p - 1 < 2 ^ 64) by (change (2 ^ 32) with 4294967296 in L; lia).
  destruct (C30_terminates_proof Debug (p - 1) (proj1 P1) (proj2 P1)) as (l & E & _).
  destruct (even_factors _ _ _ Odd E) as [l' ->].
  unfold primitive_root. destruct (N.eqb_spec p 0) as [->|P0]; [discriminate L|]. cbn [bind]. rewrite E. cbn [bind divide_all].
  unfold u64_div at 1. cbn [N.eqb bind].
  destruct (divide_all (p - 1) l') as [t| | |] eqn:D; cbn [bind].
  2: reflexivity.
  2-3: exfalso; clear -D; induction l' as [|f l' IH]; cbn [divide_all] in D; [discriminate|]; unfold u64_div in D;
       destruct (f =? 0); cbn [bind] in D; [discriminate|]; destruct (divide_all (p - 1) l'); cbn [bind] in D; try discriminate; auto.
  unfold while.
  match goal with |- context [steps 64 ?f 2] => assert (H : steps 0 f 2 = Panic) end.
  { cbn [steps]. assert (X : 2 <? p = true) by (apply N.ltb_lt; change (2 ^ 32) with 4294967296 in L; lia). rewrite X.
    cbn [rejected]. rewrite exp_two_overflows; [reflexivity|exact L|]. change (2 ^ 32) with 4294967296 in L.
    apply N.div_le_lower_bound; lia. }
  change 64%nat with (64 + 0)%nat. now rewrite (steps_panic _ _ 0 64 H).
Qed.

Lemma raders_debug_len T (NT : Num T) (d D : Dht T) : N.of_nat (dht_len d) + 1 < 2 ^ 64 -> raders Debug d = Ok D ->
  N.of_nat (dht_len D) <= 2 ^ 32.
Proof.
  intros U E. destruct (raders_len _ _ _ E) as [L _]. rewrite L. destruct (N.le_gt_cases (N.of_nat (dht_len d + 1)) (2 ^ 32)) as [|G]; auto.
  exfalso. unfold raders in E. destruct (miller_rabin (N.of_nat (dht_len d + 1))) eqn:M; [|discriminate]. cbn [rassert bind] in E.
  apply miller_rabin_ok in M. unfold raders_roots in E. rewrite root_overflows in E; auto; [discriminate|]. rewrite Nat2N.inj_add. exact U.
Qed.

(** ** every instance a debug build constructs is in the range of C28 *)
Definition capped {T} (A : allowed T) : allowed T :=
  {| al_user := al_user A; al_radix4 := al_radix4 A; al_rader := fun p => N.of_nat p <= 2 ^ 32 |}.
Lemma assembled_capped T (NT : Num T) (A : allowed T) d : (forall p, al_rader A p -> N.of_nat p < 2 ^ 64) ->
  assembled Debug A d -> assembled Debug (capped A) d.
Proof.
  intros H. induction 1; auto using as_bf1, as_bf2, as_bf3, as_bf4, as_bf5, as_bf6, as_bf8, as_bf9, as_bf16, as_naive, as_mixed, as_2xn, as_3xn, as_4xn, as_5xn, as_6xn.
  - now apply as_user.
  - eapply as_split; [exact IHassembled1|exact IHassembled2|exact H0].
  - eapply as_radix4; eauto.
  - eapply as_rader; eauto. cbn [al_rader capped]. eapply raders_debug_len; [|eassumption].
    match goal with R : raders Debug d = Ok ?D, S : al_rader A _ |- _ => apply H in S; destruct (raders_len _ _ _ R) as [L _]; rewrite L in S; rewrite Nat2N.inj_add in S; exact S end.
Qed.

(** the lengths of a composition fit into 64 bits, and Radix4 stays where it is right (C10) *)
Lemma build_in_range T (NT : Num T) t : forall d : Dht T, build Debug t = Ok d -> rad4_small t -> lengths64 t -> in_range t.
Proof.
  induction t; intros d E S L; cbn [build rad4_small lengths64 in_range] in *; auto; destruct L as [L0 L].
  all: try (destruct (build Debug t) as [d1| | |] eqn:B; cbn [bind] in E; try discriminate).
  all: try (destruct (build Debug t1) as [d1| | |] eqn:B1; cbn [bind] in E; try discriminate;
            destruct (build Debug t2) as [d2| | |] eqn:B2; cbn [bind] in E; try discriminate; destruct S, L; split; eauto).
  all: try (eapply IHt; eauto; fail).
  split; [eapply IHt; eauto|]. pose proof (build_len Debug t d1 B) as Lb. rewrite <- Lb.
  destruct (raders_len _ _ _ E) as [<- _]. eapply raders_debug_len; [|exact E]. rewrite Lb. cbn [tree_len] in L0. rewrite Nat2N.inj_add in L0. exact L0.
Qed.
