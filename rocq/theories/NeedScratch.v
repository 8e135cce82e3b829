(** * When MixedRadixNxn and SplitRadix leave their inner instance short of scratch *)
From Verif Require Import Lemmas NxnProof NxnInst MixedRadixProof SplitRadixProof.
From Verif Require Export ApiProof.
From Coq Require Import Lia.

Section Short.
  Context {T : Type} {NT : Num T}.

  Lemma panics_inplace n s o inplace oop (b scr : list T) : 0 < n ->
    (forall c w, length c = n -> length w = s -> inplace c w = Panic) ->
    sized_inplace (boilerplate_dht n s o inplace oop) b scr ->
    dht_process_with_scratch (boilerplate_dht n s o inplace oop) b scr = Panic.
  Proof.
    intros Hn Hp (B1 & B2 & B3). set (d := boilerplate_dht n s o inplace oop) in *.
    destruct (sized_chunks d b Hn B1 B2) as (xs & E & N & F). subst b. cbn in B1, B2, B3, F.
    unfold d. cbn [boilerplate_dht dht_process_with_scratch].
    destruct (Nat.eqb_spec n 0); [lia|].
    destruct (Nat.ltb_spec (length scr) s); [lia|]. destruct (Nat.ltb_spec (length (concat xs)) n); [lia|].
    cbn [orb]. rewrite split_at_ok by auto. cbn [bind].
    rewrite <- (app_nil_r (concat xs)). rewrite (iter_chunks_visit n inplace xs []) by (auto; simpl; lia).
    destruct xs as [|x xs]; [easy|]. cbn [visit]. apply Forall_cons_iff in F as [Fx _].
    rewrite Hp; [reflexivity|auto|rewrite firstn_length; lia].
  Qed.
  Lemma panics_oop n s o inplace oop (i out scr : list T) : 0 < n ->
    (forall c c' w, length c = n -> length c' = n -> length w = o -> oop c c' w = Panic) ->
    sized_oop (boilerplate_dht n s o inplace oop) i out scr ->
    dht_process_oop (boilerplate_dht n s o inplace oop) i out scr = Panic.
  Proof.
    intros Hn Hp (O & B1 & B2 & B3). set (d := boilerplate_dht n s o inplace oop) in *.
    assert (O1 : dht_len d <= length out) by lia. assert (O2 : length out mod dht_len d = 0) by (now rewrite <- O).
    destruct (sized_chunks d i Hn B1 B2) as (xs & E & N & F). subst i.
    destruct (sized_chunks d out Hn O1 O2) as (ys & E & N' & F'). subst out. cbn in B1, B2, B3, F, F', O1, O2.
    unfold d. cbn [boilerplate_dht dht_process_oop].
    destruct (Nat.eqb_spec n 0); [lia|].
    destruct (Nat.ltb_spec (length scr) o); [lia|]. destruct (Nat.ltb_spec (length (concat xs)) n); [lia|].
    destruct (Nat.eqb_spec (length (concat ys)) (length (concat xs))); [|lia].
    cbn [orb negb]. rewrite split_at_ok by auto. cbn [bind].
    destruct xs as [|x xs]; [easy|]. destruct ys as [|y ys]; [easy|].
    apply Forall_cons_iff in F as [Fx _]. apply Forall_cons_iff in F' as [Fy _].
    cbn [concat] in *. unfold iter_chunks_zipped. rewrite O, Nat.ltb_irrefl. cbn [iter_chunks_zipped_go].
    rewrite <- O. destruct (Nat.leb_spec n (length (x ++ concat xs))); [|lia].
    rewrite O. destruct (Nat.leb_spec n (length (y ++ concat ys))); [|lia].
    cbn [andb]. rewrite !split_at_app by auto. cbn [bind].
    rewrite Hp; [reflexivity|auto|auto|rewrite firstn_length; lia].
  Qed.

  Lemma nxn_short k (d : Dht T) apply : 0 < k -> 0 < dht_len d -> checks_sizes d -> ~ fits k d ->
    (forall b scr, sized_inplace (nxn k d apply) b scr -> dht_process_with_scratch (nxn k d apply) b scr = Panic).
  Proof.
    intros Hk Hd [C1 C2] NF b scr. unfold nxn. apply panics_inplace; [nia|].
    intros c w Lc Lw. unfold nxn_inplace.
    destruct (Nat.ltb_spec (k * dht_len d) (dht_inplace_scratch d)).
    - unfold transpose_half_rev_out, rassert.
      destruct (Nat.eqb_spec (length c) (length w)); [lia|reflexivity].
    - rewrite transpose_half_rev_out_ok by (auto; lia). cbn [bind].
      rewrite C2; [reflexivity|]. intros (S1 & S2 & S3 & S4). apply NF. split; [lia|]. simpl in S4. lia.
  Qed.

  (** the condition under which SplitRadix's inner instances get what they ask for *)
  Definition split_fits (dq dh : Dht T) : Prop :=
    dht_inplace_scratch dh <= dht_len dh /\ dht_inplace_scratch dq <= 4 * dht_len dq /\ dht_oop_scratch dq = 0.

  Lemma split_short (dq dh d : Dht T) fh : transforms dh fh -> split_radix dq dh = Ok d -> 0 < dht_len dq ->
    checks_sizes dq -> checks_sizes dh -> ~ split_fits dq dh ->
    (forall b scr, sized_inplace d b scr -> dht_process_with_scratch d b scr = Panic) \/
    (forall i o scr, sized_oop d i o scr -> dht_process_oop d i o scr = Panic).
  Proof.
    intros Hh E Hq [Q1 Q2] [H1 H2] NF. apply transforms_ok in Hh.
    unfold split_radix, rassert in E. destruct (Nat.eqb_spec (dht_len dh) (dht_len dq * 2)) as [L|]; [|discriminate].
    cbn [bind] in E. injection E as <-. set (q := dht_len dq) in *.
    assert (Ev : forall x : list T, length (split_evens q x) = q * 2).
    { intros. unfold split_evens. now rewrite map_length, seq_length. }
    assert (E1 : forall x : list T, length (split_q1 q x) = q).
    { intros. unfold split_q1. now rewrite map_length, seq_length. }
    assert (E3 : forall x : list T, length (split_q3 q x) = q).
    { intros. unfold split_q3. now rewrite map_length, seq_length. }
    assert (D2 : q * 4 / 2 = q * 2) by (replace (q * 4) with (q * 2 * 2) by lia; now rewrite Nat.div_mul).
    assert (D4 : q * 4 / 4 = q) by (now rewrite Nat.div_mul).
    destruct (le_dec (dht_inplace_scratch dh) (dht_len dh)) as [F1|F1];
      [destruct (Nat.eq_dec (dht_oop_scratch dq) 0) as [F3|F3]|].
    - right. intros i o scr. apply panics_oop; [lia|]. intros c c' w Lc Lc' Lw.
      unfold split_oop. rewrite split_apply_ok by auto. cbn [bind]. cbv zeta. rewrite D2, D4.
      rewrite split_at_app by auto. cbn [bind].
      destruct (ok_inplace _ _ Hh ltac:(lia) 1 (split_evens q c) c') as (s1 & Es1 & Ls1 & _); [lia|rewrite Ev; lia|lia|].
      rewrite Es1. cbn [bind]. rewrite Q1; [reflexivity|].
      intros (_ & _ & S). apply NF. split; [auto|]. split; [|auto]. fold q. lia.
    - left. intros b scr. apply panics_inplace; [lia|]. intros c w Lc Lw.
      unfold split_inplace. rewrite split_apply_ok by auto. cbn [bind]. cbv zeta. rewrite D2, D4.
      rewrite split_at_app by auto. cbn [bind].
      destruct (ok_inplace _ _ Hh ltac:(lia) 1 (split_evens q c) w) as (s1 & Es1 & Ls1 & _); [lia|rewrite Ev; lia|lia|].
      rewrite Es1. cbn [bind]. rewrite Q2; [reflexivity|].
      intros (_ & _ & _ & S). simpl in S. lia.
    - left. intros b scr. apply panics_inplace; [lia|]. intros c w Lc Lw.
      unfold split_inplace. rewrite split_apply_ok by auto. cbn [bind]. cbv zeta. rewrite D2, D4.
      rewrite split_at_app by auto. cbn [bind]. rewrite H1; [reflexivity|].
      intros (_ & _ & S). lia.
  Qed.

  (** an instance that transforms cannot panic on every correctly sized call *)
  Lemma some_chunks n : exists xs : list (list T), chunks_of n xs.
  Proof. exists [repeat nzero n]. split; [discriminate|]. repeat constructor. apply repeat_length. Qed.
  Lemma always_panics (d : Dht T) f : 0 < dht_len d -> transforms d f ->
    ((forall b scr, sized_inplace d b scr -> dht_process_with_scratch d b scr = Panic) \/
     (forall i o scr, sized_oop d i o scr -> dht_process_oop d i o scr = Panic)) -> False.
  Proof.
    intros Hn F [P|P]; destruct (some_chunks (dht_len d)) as [xs C]; destruct (chunks_sized d xs Hn C) as [S1 S2].
    - destruct (tr_inplace _ _ F xs (repeat nzero (dht_inplace_scratch d)) Hn C) as (s & E & _);
        [rewrite repeat_length; auto|].
      rewrite P in E; [discriminate|]. split; [auto|split; auto]. rewrite repeat_length. auto.
    - destruct (tr_oop _ _ F xs (concat xs) (repeat nzero (dht_oop_scratch d)) Hn C eq_refl) as (i & s & E & _);
        [rewrite repeat_length; auto|].
      rewrite P in E; [discriminate|]. split; [auto|split; [auto|split; auto]]. rewrite repeat_length. auto.
  Qed.

  Lemma nxn_exact k (d : Dht T) apply : 0 < k -> 0 < dht_len d -> checks_sizes d ->
    (fits k d -> exists f, transforms (nxn k d apply) f) ->
    ((exists f, transforms (nxn k d apply) f) <-> fits k d).
  Proof.
    intros Hk Hd C Hf. split; [|auto]. intros [f F].
    destruct (le_dec (dht_inplace_scratch d) (k * dht_len d)) as [H1|H1];
      [destruct (Nat.eq_dec (dht_oop_scratch d) 0) as [H2|H2]|]; [now split| |];
      exfalso; refine (always_panics (nxn k d apply) f _ F (or_introl (nxn_short k d apply Hk Hd C _)));
      try (cbn; nia); intros []; lia.
  Qed.

  Section Nxn.
    Variables (d : Dht T) (fi : list T -> list T).
    Hypothesis Ht : transforms d fi.
    Hypothesis Hn : 0 < dht_len d.
    Hypothesis Hc : checks_sizes d.
    Let fi_ok : dht_ok d fi := proj2 (transforms_ok d fi) Ht.
    Lemma exact_2xn : (exists f, transforms (mixed_radix_2xn d) f) <-> fits 2 d.
    Proof. apply nxn_exact; auto. intros F. exact (ex_intro _ _ (proj1 (transforms_ok _ _) (proj1 (mixed_radix_2xn_ok d fi fi_ok F)))). Qed.
    Lemma exact_3xn : (exists f, transforms (mixed_radix_3xn d) f) <-> fits 3 d.
    Proof. apply nxn_exact; auto. intros F. exact (ex_intro _ _ (proj1 (transforms_ok _ _) (proj1 (mixed_radix_3xn_ok d fi fi_ok F)))). Qed.
    Lemma exact_4xn : (exists f, transforms (mixed_radix_4xn d) f) <-> fits 4 d.
    Proof. apply nxn_exact; auto. intros F. exact (ex_intro _ _ (proj1 (transforms_ok _ _) (proj1 (mixed_radix_4xn_ok d fi fi_ok F)))). Qed.
    Lemma exact_5xn : (exists f, transforms (mixed_radix_5xn d) f) <-> fits 5 d.
    Proof. apply nxn_exact; auto; [lia|]. intros F. exact (ex_intro _ _ (proj1 (transforms_ok _ _) (proj1 (mixed_radix_5xn_ok d fi fi_ok F)))). Qed.
    Lemma exact_6xn : (exists f, transforms (mixed_radix_6xn d) f) <-> fits 6 d.
    Proof. apply nxn_exact; auto; [lia|]. intros F. exact (ex_intro _ _ (proj1 (transforms_ok _ _) (proj1 (mixed_radix_6xn_ok d fi fi_ok F)))). Qed.
  End Nxn.

  Lemma exact_split (dq dh d : Dht T) fq fh : transforms dq fq -> transforms dh fh ->
    0 < dht_len dq -> checks_sizes dq -> checks_sizes dh -> split_radix dq dh = Ok d ->
    ((exists f, transforms d f) <-> split_fits dq dh).
  Proof.
    intros Tq Th Hq Cq Ch E. destruct (split_radix_len _ _ _ E) as (L1 & L2 & _ & _). split.
    - intros [f F].
      destruct (le_dec (dht_inplace_scratch dh) (dht_len dh)) as [H1|H1];
        [destruct (Nat.eq_dec (dht_oop_scratch dq) 0) as [H2|H2];
         [destruct (le_dec (dht_inplace_scratch dq) (4 * dht_len dq)) as [H3|H3]|]|]; [now split| | |];
        exfalso; refine (always_panics d f _ F (split_short dq dh d fh Th E Hq Cq Ch _)); try lia; intros (? & ? & ?); lia.
    - intros (F1 & F2 & F3). apply transforms_ok in Tq, Th.
      destruct (split_radix_ok dq dh fq fh Tq Th L1 F1) as (d' & E' & Ok' & _); [lia|auto|].
      rewrite E in E'. injection E' as <-. exact (ex_intro _ _ (proj1 (transforms_ok _ _) Ok')).
  Qed.

  (** ** an instance obeying the contract that asks for more scratch than it needs *)
  Definition greedy (n s o : nat) : Dht T :=
    boilerplate_dht n s o (fun c scr => Ok (c, scr)) (fun i out scr => Ok (i, i, scr)).
  Lemma greedy_ok n s o : transforms (greedy n s o) (fun x => x) /\ (0 < n -> checks_sizes (greedy n s o)).
  Proof.
    destruct (boilerplate_dht_ok n s o (fun c scr : list T => Ok (c, scr)) (fun i out scr : list T => Ok (i, i, scr)) (fun x => x)) as [H1 H2].
    - auto.
    - intros _ c scr Lc Ls. exists scr. auto.
    - intros _ i out scr Li Lo Ls. exists i, scr. auto.
    - split; [now apply transforms_ok|]. intros Hn. exact (H2 Hn).
  Qed.
End Short.
