(** * The constructors with machine arithmetic build the instances the other theorems are about *)
From Verif Require Export NewProof Euclid NewSpec.
From Verif Require Import Lemmas FloatTree Safety PropsSafetyProof PropsMathProof.
From Coq Require Import NArith Lia.

Local Open Scope N_scope.

(** the constants of Rader's algorithm *)
Lemma root_first m p r r' s' : primitive_root m (N.of_nat p) = Ok (Some (N.of_nat r)) -> raders_roots m p = Ok (r', s') -> r' = r.
Proof.
  intros Er E. unfold raders_roots in E. apply bind_inv in E. destruct E as (ro & Ero & E). assert (ro = Some (N.of_nat r)) by congruence. subst ro.
  apply bind_inv in E. destruct E as (r0 & [= <-] & E). apply bind_inv in E. destruct E as ([g x] & _ & E).
  injection E as E _. lia.
Qed.
Lemma roots_fit {W : width} m p r ri : rader_fits (N.of_nat p) -> (W = W32 -> N.of_nat p <= 2 ^ 32) -> miller_rabin (N.of_nat p) = true ->
  raders_roots m p = Ok (r, ri) -> index_fit p r /\ index_fit p ri.
Proof.
  intros F B M E. apply miller_rabin_ok in M. enough (H : W = W32 -> N.of_nat (p - 1) * N.of_nat r < 2 ^ 32 /\ N.of_nat (p - 1) * N.of_nat ri < 2 ^ 32) by (split; intros Hw; apply (H Hw)).
  intros Hw. specialize (F Hw). specialize (B Hw).
  assert (P3 : 3 <= N.of_nat p).
  { pose proof E as E'. unfold raders_roots in E'. apply bind_inv in E'. destruct E' as (ro & Ero & E'). destruct ro as [r0|]; [|discriminate].
    apply root_range in Ero. lia. }
  destruct (C28_proof m (N.of_nat p) M (conj P3 B)) as (r0 & Er & R0 & G & Lr).
  destruct (raders_roots_ok m p M) as (r1 & s1 & E1 & R1 & S1 & _ & _ & I1); [lia|exact B|].
  rewrite E in E1. injection E1 as <- <-.
  assert (Hr : r = N.to_nat r0) by (apply (root_first m p _ r ri); [rewrite N2Nat.id; exact Er|exact E]).
  assert (Hr' : N.of_nat r = r0) by lia. subst r0.
  destruct (F (N.of_nat r) (N.of_nat ri)) as [H1 H2].
  - split; [exact R0|]. split; [exact G|exact Lr].
  - lia.
  - rewrite <- Nat2N.inj_mul, <- Nat2N.inj_mod, I1. reflexivity.
  - replace (N.of_nat (p - 1)) with (N.of_nat p - 1) by lia. auto.
Qed.
(** the lengths up to 2^16 *)
Lemma small_fits {W : width} p : p <= 2 ^ 16 -> rader_fits p.
Proof.
  intros B _ r s [R _] S _. change (2 ^ 16) with 65536 in B. change (2 ^ 32) with 4294967296. nia.
Qed.
Ltac fit := cbn [raders_fit tree_len]; repeat match goal with |- _ /\ _ => split | |- True => exact Logic.I | |- rader_fits _ => apply small_fits; discriminate end.
Lemma push_all_ok {A B} (f : A -> res B) (g : A -> B) l : (forall x, In x l -> f x = Ok (g x)) -> push_all f l = Ok (map g l).
Proof.
  induction l as [|x l IH]; intros H; [reflexivity|]. simpl. rewrite H by (left; auto). simpl. rewrite IH by (intros; apply H; now right). reflexivity.
Qed.
Lemma push_lists_ok {A B} (f : A -> res (list B)) (g : A -> list B) l : (forall x, In x l -> f x = Ok (g x)) ->
  push_lists f l = Ok (flat_map g l).
Proof. intros H. unfold push_lists. rewrite (push_all_ok f g l H). simpl. now rewrite flat_map_concat_map. Qed.

Section Agree.
  Context {W : width} {T : Type} {NT : Num T}.
  Variables (m : profile) (size : N).

  Lemma eighth_ok a len : N.of_nat a * 8 + N.of_nat len < span -> N.of_nat len * 8 < span ->
    eighth_turn m a len = Ok (cscale (compute_dft_twiddle_inverse (a * 8 + len) (len * 8)) nroot_half : cplx T).
  Proof.
    intros H1 H2. unfold eighth_turn. rewrite umul_ok by (simpl; lia). cbn [bind]. rewrite uadd_ok by (rewrite Nat2N.inj_mul; exact H1).
    cbn [bind]. rewrite umul_ok by exact H2. reflexivity.
  Qed.

  (** the result of [uadd len (if len <? s then s else 0)] *)
  Lemma nxn_eq k cap tab app (d : Dht T) c tw :
    N.of_nat k * N.of_nat (dht_len d) < span -> N.of_nat k * N.of_nat (dht_len d) + N.of_nat (dht_inplace_scratch d) < span ->
    cap (dht_len d / 2)%nat = Ok c -> tab (dht_len d / 2)%nat (k * dht_len d)%nat = Ok tw ->
    nxn_new m size k cap tab app d =
    (_ <- alloc (2 * size) c ;; _ <- alloc (2 * size) (dht_len d / 2) ;; Ok (nxn k d (app (dht_len d) tw))).
  Proof.
    intros H1 H2 C E. unfold nxn_new. rewrite umul_ok by auto. cbn [bind]. rewrite C. cbn [bind].
    destruct (alloc (2 * size) c); auto. cbn [bind]. destruct (alloc (2 * size) (dht_len d / 2)); auto. cbn [bind].
    rewrite E. cbn [bind]. rewrite uadd_ok; [reflexivity|].
    rewrite Nat2N.inj_mul. destruct (_ <? _)%nat; lia.
  Qed.

  Lemma in_seq1 x h : In x (seq 1 (h / 2)) -> 2 * N.of_nat x <= N.of_nat h.
  Proof. intros H. apply in_seq in H. pose proof (half_ge h). lia. Qed.

  Definition room (k : N) (d : Dht T) : Prop :=
    k * N.of_nat (dht_len d) * 8 < span /\ k * N.of_nat (dht_len d) + N.of_nat (dht_inplace_scratch d) < span.

  Lemma two_eq d : room 2 d -> radix2_new m size d =
    (_ <- alloc (2 * size) (dht_len d / 2) ;; _ <- alloc (2 * size) (dht_len d / 2) ;; Ok (mixed_radix_2xn d)).
  Proof.
    intros [R1 R2]. unfold radix2_new.
    rewrite (nxn_eq 2 _ _ _ d (dht_len d / 2) (radix2_twiddles (dht_len d))); try wnum; auto.
    apply push_all_ok. auto.
  Qed.
  Lemma three_eq d : room 3 d -> radix3_new m size d =
    (_ <- alloc (2 * size) (dht_len d / 2 * 2) ;; _ <- alloc (2 * size) (dht_len d / 2) ;; Ok (mixed_radix_3xn d)).
  Proof.
    intros [R1 R2]. pose proof (half_ge (dht_len d)). unfold radix3_new.
    rewrite (nxn_eq 3 _ _ _ d (dht_len d / 2 * 2) (radix3_twiddles (dht_len d))); try wnum; auto.
    - apply umul_ok.  wnum.
    - apply push_all_ok. intros x Hx. apply in_seq1 in Hx. rewrite umul_ok by wnum. cbn [bind].
      apply eighth_ok; wnum.
  Qed.
  Lemma four_eq d : room 4 d -> radix4xn_new m size d =
    (_ <- alloc (2 * size) ((dht_len d / 2 + 1) * 2) ;; _ <- alloc (2 * size) (dht_len d / 2) ;; Ok (mixed_radix_4xn d)).
  Proof.
    intros [R1 R2]. pose proof (half_ge (dht_len d)). unfold radix4xn_new.
    rewrite (nxn_eq 4 _ _ _ d ((dht_len d / 2 + 1) * 2) (radix4xn_twiddles (dht_len d))); try wnum; auto.
    - rewrite uadd_ok by wnum. cbn [bind]. apply umul_ok.  wnum.
    - apply push_lists_ok. intros x Hx. apply in_seq1 in Hx. rewrite umul_ok by wnum. cbn [bind].
      rewrite umul_ok by wnum. reflexivity.
  Qed.
  Lemma five_eq d : room 5 d -> radix5_new m size d =
    (_ <- alloc (2 * size) (dht_len d / 2 * 2) ;; _ <- alloc (2 * size) (dht_len d / 2) ;; Ok (mixed_radix_5xn d)).
  Proof.
    intros [R1 R2]. pose proof (half_ge (dht_len d)). unfold radix5_new.
    rewrite (nxn_eq 5 _ _ _ d (dht_len d / 2 * 2) (radix5_twiddles (dht_len d))); try wnum; auto.
    - apply umul_ok.  wnum.
    - apply push_lists_ok. intros x Hx. apply in_seq1 in Hx.
      rewrite umul_ok by wnum. cbn [bind]. rewrite eighth_ok by wnum. cbn [bind].
      rewrite umul_ok by wnum. cbn [bind]. rewrite eighth_ok by wnum. reflexivity.
  Qed.
  Lemma six_eq d : room 6 d -> radix6_new m size d =
    (_ <- alloc (2 * size) (3 * (dht_len d / 2)) ;; _ <- alloc (2 * size) (dht_len d / 2) ;; Ok (mixed_radix_6xn d)).
  Proof.
    intros [R1 R2]. pose proof (half_ge (dht_len d)). unfold radix6_new.
    rewrite (nxn_eq 6 _ _ _ d (3 * (dht_len d / 2)) (radix6_twiddles (dht_len d))); try wnum; auto.
    - apply umul_ok.  wnum.
    - apply push_lists_ok. intros x Hx. apply in_seq1 in Hx.
      rewrite umul_ok by wnum. cbn [bind]. rewrite eighth_ok by wnum. cbn [bind].
      rewrite umul_ok by wnum. cbn [bind]. rewrite eighth_ok by wnum. cbn [bind].
      rewrite umul_ok by wnum. cbn [bind]. rewrite eighth_ok by wnum. reflexivity.
  Qed.
  Lemma mixed_eq dw dh : N.of_nat (dht_len dw) < 2 * unit_of W -> N.of_nat (dht_len dh) < 2 * unit_of W ->
    N.of_nat (dht_len dw) * N.of_nat (dht_len dh) < 2 * unit_of W ->
    N.of_nat (dht_inplace_scratch dh) <= 2 * unit_of W -> N.of_nat (dht_oop_scratch dw) <= 2 * unit_of W ->
    mixed_new m size dw dh =
    (_ <- alloc (2 * size) ((dht_len dw / 2 + 1) * (dht_len dh / 2 + 1)) ;;
     _ <- alloc (2 * size) ((dht_len dw / 2 + 1 - 1) * (dht_len dh / 2 + 1 - 1)) ;; Ok (mixed_radix dw dh)).
  Proof.
    intros W1 W2 W3 S1 S2. pose proof (half_ge (dht_len dw)) as G1. pose proof (half_ge (dht_len dh)) as G2.
    assert (P : 4 * (N.of_nat (dht_len dw / 2) * N.of_nat (dht_len dh / 2)) <= N.of_nat (dht_len dw) * N.of_nat (dht_len dh)) by nia.
    unfold mixed_new. cbv zeta. rewrite umul_ok by wnum. cbn [bind].
    rewrite uadd_ok by wnum. cbn [bind]. rewrite uadd_ok by wnum. cbn [bind].
    rewrite umul_ok by (rewrite !Nat2N.inj_add; wnum). cbn [bind].
    destruct (alloc (2 * size) ((dht_len dw / 2 + 1) * (dht_len dh / 2 + 1))); auto. cbn [bind].
    destruct (alloc (2 * size) ((dht_len dw / 2 + 1 - 1) * (dht_len dh / 2 + 1 - 1))); auto. cbn [bind].
    rewrite (push_lists_ok _ (fun row => map (fun column =>
             cscale (compute_dft_twiddle_inverse (row * column * 8 + dht_len dw * dht_len dh) (dht_len dw * dht_len dh * 8)) nroot_half)
          (seq 1 (dht_len dh / 2 + 1 - 1)))).
    - cbn [bind]. rewrite uadd_ok; [reflexivity|]. rewrite Nat2N.inj_mul.
      destruct (Nat.ltb_spec (dht_len dw * dht_len dh) (dht_inplace_scratch dh)); wnum.
    - intros r Hr. apply push_all_ok. intros c Hc. rewrite Nat.add_sub in Hr, Hc. apply in_seq1 in Hr. apply in_seq1 in Hc.
      assert (Q : 4 * (N.of_nat r * N.of_nat c) <= N.of_nat (dht_len dw) * N.of_nat (dht_len dh)) by nia.
      rewrite umul_ok by wnum. cbn [bind]. apply eighth_ok; rewrite ?Nat2N.inj_mul; wnum.
  Qed.
  Lemma split_eq dq dh : N.of_nat (dht_len dq) * 4 < 2 * unit_of W ->
    split_new m size dq dh =
    (_ <- rassert (dht_len dh =? dht_len dq * 2)%nat ;;
     _ <- alloc (2 * size) ((dht_len dq * 4 / 8 + 1) * 2) ;; split_radix dq dh).
  Proof.
    intros Hw. unfold split_new, split_radix.
    rewrite umul_ok by wnum. cbn [bind]. destruct (rassert (dht_len dh =? dht_len dq * 2)%nat) as [[]| | |]; auto. cbn [bind].
    rewrite umul_ok by wnum. cbn [bind]. set (n := (dht_len dq * 4)%nat) in *.
    assert (Wn : N.of_nat n < 2 * unit_of W) by (unfold n; lia).
    pose proof (Nat.div_mod n 8 ltac:(lia)) as D8.
    rewrite uadd_ok by wnum. cbn [bind]. rewrite umul_ok by wnum. cbn [bind].
    destruct (alloc (2 * size) ((n / 8 + 1) * 2)) as [[]| | |]; auto. cbn [bind].
    rewrite (push_lists_ok _ (fun x => [compute_dft_twiddle_inverse (x * 1) n; compute_dft_twiddle_inverse (x * 3) n])); [reflexivity|].
    intros x Hx. apply in_seq in Hx. rewrite umul_ok by wnum. cbn [bind]. rewrite umul_ok by wnum. reflexivity.
  Qed.
  Lemma radix4_table_eq fuel len s : N.of_nat len < 2 * unit_of W -> (s * 4 <= len)%nat ->
    radix4_table_go m fuel len s = (radix4_twiddles_go fuel len s : res (list (cplx T))).
  Proof.
    intros Hw. revert s. induction fuel as [|f IH]; intros s Hs; [reflexivity|]. cbn [radix4_table_go radix4_twiddles_go].
    destruct (Nat.ltb_spec 0 s) as [P|]; auto. rewrite umul_ok by wnum. cbn [bind].
    assert (R : (len / (s * 4) * (s * 4) <= len)%nat).
    { pose proof (Nat.div_mod len (s * 4) ltac:(lia)). lia. }
    rewrite (push_lists_ok _ (fun i => map (fun k => compute_dft_twiddle_inverse (i * k * s) len) (seq 1 2))).
    - cbn [bind]. rewrite IH; [reflexivity|]. pose proof (Nat.div_mod s 4 ltac:(lia)). lia.
    - intros i Hi. apply push_all_ok. intros k Hk. apply in_seq in Hi. apply in_seq in Hk.
      assert (Q : (i * s * 4 <= len)%nat) by nia.
      assert (Q1 : (i * k <= i * 2)%nat) by nia. assert (Q2 : (i <= i * s)%nat) by nia.
      assert (Q3 : (i * k * s <= i * s * 2)%nat) by nia.
      rewrite umul_ok by (rewrite <- Nat2N.inj_mul; wnum). cbn [bind].
      rewrite umul_ok by (rewrite <- Nat2N.inj_mul; wnum). reflexivity.
  Qed.
  Lemma radix4_base_range len : len <> 0%nat -> (1 <= fst (@radix4_base T _ len))%nat /\ N.of_nat (fst (@radix4_base T _ len)) <= N.of_nat len + 16.
  Proof.
    intros N0. unfold radix4_base. destruct (trailing_zeros len) as [|[|[|z]]]; cbn [fst]; try lia.
    destruct (_ =? _)%nat; cbn [fst]; split; lia.
  Qed.
  Lemma radix4_eq len : N.of_nat len < 2 * unit_of W ->
    radix4_new m size len = (_ <- rassert (is_power_of_two len) ;; _ <- alloc (2 * size) len ;; radix4 len).
  Proof.
    intros Hw. unfold radix4_new, radix4. destruct (rassert (is_power_of_two len)) as [[]| | |] eqn:P; auto. cbn [bind].
    assert (N0 : len <> 0%nat) by (intros ->; discriminate).
    pose proof (radix4_base_range len N0) as B. destruct (radix4_base len) as [b db]. cbn [fst] in B.
    rewrite umul_ok by wnum. cbn [bind].
    destruct (alloc (2 * size) len); auto. cbn [bind]. unfold radix4_twiddles. rewrite radix4_table_eq; auto.
    pose proof (Nat.div_mod len (b * 4) ltac:(lia)). nia.
  Qed.
  Lemma raders_inner_input_eq len ri : index_fit len ri -> (1 < len)%nat -> (ri <= len)%nat -> raders_inner_input m len ri = (raders_dht_input m len ri : res (list T)).
  Proof.
    intros F L R. unfold raders_inner_input, raders_dht_input. cbv zeta. apply bind_ext; [|reflexivity].
    apply (for_range_ext_inv (fun p => snd p < len)%nat); [exact L|]. intros j [l k] _ Hk. cbn [snd] in Hk.
    rewrite (index_step_same m len) by auto. split; [reflexivity|]. intros s' E. bi E. bi E. injection E as <-. cbn [snd].
    eapply index_step_lt; [|exact E1]. lia.
  Qed.
  Lemma rader_eq d : rader_fits (N.of_nat (dht_len d + 1)) -> N.of_nat (dht_len d) < 2 * unit_of W -> N.of_nat (dht_inplace_scratch d) <= 2 * unit_of W ->
    raders_new m size d = raders m d \/ raders_new m size d = Panic.
  Proof.
    intros Fi Hw S. unfold raders_new, raders. rewrite uadd_ok by wnum. cbn [bind].
    destruct (rassert _) as [[]| | |] eqn:Em; auto. cbn [bind]. destruct (raders_roots m (dht_len d + 1)) as [[r ri]| | |] eqn:Er; auto. cbn [bind].
    assert (Fx : index_fit (dht_len d + 1) r /\ index_fit (dht_len d + 1) ri) by (apply (roots_fit m); auto; [intros ->; cbn [unit_of] in Hw; lia|]; unfold rassert in Em; destruct (miller_rabin _); congruence).
    destruct Fx as [_ Fx]. apply roots_range in Er; [|pose proof (unit_top W); lia]. rewrite raders_inner_input_eq by (auto; lia).
    destruct (alloc size (dht_len d)) eqn:A1; auto; [|unfold alloc, rassert in A1; destruct (_ <=? _) in A1; discriminate..]. cbn [bind].
    destruct (raders_dht_input m (dht_len d + 1) ri); auto. cbn [bind].
    destruct (alloc size (dht_inplace_scratch d)) eqn:A2; auto; [|unfold alloc, rassert in A2; destruct (_ <=? _) in A2; discriminate..]. cbn [bind].
    destruct (dht_process d a0); auto. cbn [bind].
    destruct (uadd m (length a2 / 2) 1) eqn:U; auto; [|unfold uadd, usize in U; destruct (_ <? _) in U; [|destruct m]; discriminate..]. cbn [bind].
    destruct (alloc (2 * size) a3) eqn:A3; auto; [|unfold alloc, rassert in A3; destruct (_ <=? _) in A3; discriminate..]. cbn [bind].
    destruct (raders_twiddles a2); auto. cbn [bind]. rewrite uadd_ok; [now left|].
    destruct (_ <=? _)%nat; wnum.
  Qed.
  Lemma rader_same d : rader_fits (N.of_nat (dht_len d + 1)) -> N.of_nat (dht_len d) < 2 * unit_of W -> N.of_nat (dht_inplace_scratch d) <= 2 * unit_of W ->
    N.of_nat (dht_len d) * size <= unit_of W -> N.of_nat (dht_inplace_scratch d) * size <= unit_of W -> size <= unit_of W ->
    (forall b b', dht_process d b = Ok b' -> length b' = length b) ->
    raders_new m size d = raders m d.
  Proof.
    intros Fi Hw S W' S' Z K. unfold raders_new, raders. rewrite uadd_ok by wnum. cbn [bind].
    destruct (rassert _) as [[]| | |] eqn:Em; auto. cbn [bind]. destruct (raders_roots m (dht_len d + 1)) as [[r ri]| | |] eqn:Er; auto. cbn [bind].
    assert (Fx : index_fit (dht_len d + 1) r /\ index_fit (dht_len d + 1) ri) by (apply (roots_fit m); auto; [intros ->; cbn [unit_of] in Hw; lia|]; unfold rassert in Em; destruct (miller_rabin _); congruence).
    destruct Fx as [_ Fx]. apply roots_range in Er; [|pose proof (unit_top W); lia]. rewrite raders_inner_input_eq by (auto; lia).
    rewrite alloc_ok by (wnum). cbn [bind].
    destruct (raders_dht_input m (dht_len d + 1) ri) as [inp| | |] eqn:I; auto. cbn [bind].
    rewrite alloc_ok by (wnum). cbn [bind].
    destruct (dht_process d inp) as [out| | |] eqn:P; auto. cbn [bind].
    assert (L : length out = dht_len d).
    { rewrite (K _ _ P). unfold raders_dht_input in I. rewrite Nat.add_sub in I. bi I. destruct a as [inp' tw]. injection I as ->.
      assert (G : forall l (f : nat -> list T * nat -> res (list T * nat)) st st', (forall j s s', f j s = Ok s' -> length (fst s') = length (fst s)) ->
        for_each l f st = Ok st' -> length (fst st') = length (fst st)).
      { induction l as [|x l IHl]; intros f st st' Hf HE; simpl in HE; [now injection HE as <-|]. bi HE. rewrite (IHl f a st' Hf HE). now apply Hf in E0. }
      unfold for_range in E. apply G in E; [simpl in E; now rewrite repeat_length in E|].
      intros j [l w] [l' w'] F. bi F. bi F. injection F as <- <-. simpl. unfold set in E0. destruct (j <? length l)%nat; [|discriminate].
      injection E0 as <-. apply upd_length. }
    pose proof (half_ge (dht_len d)) as G. rewrite L. rewrite uadd_ok by wnum. cbn [bind].
    rewrite alloc_ok; [|rewrite Nat2N.inj_add].
    2: { pose proof (N.mul_le_mono_r _ _ size G). change (N.of_nat 1) with 1. wnum. }
    cbn [bind]. destruct (raders_twiddles out); auto. cbn [bind]. rewrite uadd_ok; [reflexivity|].
    destruct (_ <=? _)%nat; wnum.
  Qed.
End Agree.
