(** * Proofs behind PropsContract.v *)
From Verif Require Import Lemmas NxnProof NxnInst MixedContract SplitRadixProof Radix4Proof NumTheory Residues MathProofs RootProofs RadersContract.
From Verif Require Export NeedScratch.
From Coq Require Import Lia NArith.

Section Contract.
  Context {T : Type} {NT : Num T}.

  (** ** C16 *)
  Lemma C16_refuted_proof (m : profile) : exists d : Dht T, assembled m library d /\ 0 < dht_len d /\
    exists buffer scratch, ~ sized_inplace d buffer scratch /\ dht_process_with_scratch d buffer scratch <> Panic.
  Proof.
    exists butterfly1. split; [apply as_bf1|]. split; [simpl; lia|]. exists [], [].
    split; [intros (H & _); simpl in H; lia|discriminate].
  Qed.

  (** ** C19 *)
  Lemma C19_mixed_proof (dw dh : Dht T) fw fh : transforms dw fw -> transforms dh fh ->
    exists f, transforms (mixed_radix dw dh) f /\ (0 < dht_len dw * dht_len dh -> checks_sizes (mixed_radix dw dh)).
  Proof.
    intros Hw Hh. pose proof (proj2 (transforms_ok _ _) Hw) as Kw. pose proof (proj2 (transforms_ok _ _) Hh) as Kh.
    destruct (mixed_radix_ok dw dh fw fh Kw Kh) as [H1 H2].
    exact (ex_intro _ _ (conj (proj1 (transforms_ok _ _) H1) H2)).
  Qed.
  Lemma C19_rader_proof m (d : Dht T) f : transforms d f -> nprime (N.of_nat (dht_len d + 1)) -> dht_len d <> 1 ->
    (N.of_nat (dht_len d + 1) <= 2 ^ 32)%N ->
    exists D g, raders m d = Ok D /\ transforms D g /\ checks_sizes D.
  Proof.
    intros Hd Pp H1 Hs. pose proof (proj2 (transforms_ok _ _) Hd) as Kd.
    assert (H2 : 2 <= dht_len d).
    { destruct Pp as [Pp _]. destruct (dht_len d) as [|[|n]]; [simpl in Pp; lia|congruence|lia]. }
    destruct (raders_ok m d f Kd Pp H2 Hs) as (D & r & s & E & _ & _ & _ & _ & _ & _ & K & S & L & _).
    exists D. eexists. split; [exact E|]. split; [exact (proj1 (transforms_ok _ _) K)|]. apply S. lia.
  Qed.

  (** ** C20 *)
  Lemma C20_refuted_proof :
    (exists d f, transforms d f /\ checks_sizes d /\ 0 < dht_len d /\
       (forall D, In D [@mixed_radix_2xn T NT d; mixed_radix_3xn d; mixed_radix_4xn d; mixed_radix_5xn d; mixed_radix_6xn d] ->
          forall b scr, sized_inplace D b scr -> dht_process_with_scratch D b scr = Panic)) /\
    (exists dq fq dh fh d, transforms dq fq /\ checks_sizes dq /\ transforms dh fh /\ checks_sizes dh /\
       @split_radix T NT dq dh = Ok d /\ 0 < dht_len d /\
       forall b scr, sized_inplace d b scr -> dht_process_with_scratch d b scr = Panic).
  Proof.
    split.
    - destruct (greedy_ok (T := T) 1 0 1) as [G1 G2]. exists (greedy 1 0 1), (fun x => x).
      split; [exact G1|]. split; [apply G2; lia|]. split; [simpl; lia|].
      intros D HD. repeat destruct HD as [<-|HD]; [..|destruct HD];
        (apply nxn_short; [lia|simpl; lia|apply G2; lia|intros [_ F]; discriminate F]).
    - destruct (greedy_ok (T := T) 1 0 1) as [G1 G2]. destruct (greedy_ok (T := T) 2 0 0) as [H1 H2].
      eexists (greedy 1 0 1), (fun x => x), (greedy 2 0 0), (fun x => x), _.
      split; [exact G1|]. split; [apply G2; lia|]. split; [exact H1|]. split; [apply H2; lia|].
      split; [reflexivity|]. split; [simpl; lia|].
      intros b scr. apply panics_inplace; [simpl; lia|]. intros c w Lc Lw.
      change (dht_len (greedy 1 0 1) * 4) with (1 * 4) in *. change (dht_len (greedy 2 0 0)) with 2 in *.
      unfold split_inplace. rewrite split_apply_ok by (auto; lia). cbn [bind]. cbv zeta.
      change (1 * 4 / 2) with (1 * 2). change (1 * 4 / 4) with 1.
      rewrite split_at_app by (unfold split_evens; now rewrite map_length, seq_length). cbn [bind].
      pose proof (proj2 (transforms_ok _ _) H1) as K.
      destruct (ok_inplace _ _ K ltac:(simpl; lia) 1 (split_evens 1 c) w) as (s1 & Es1 & Ls1 & _); [lia|reflexivity|simpl; lia|].
      rewrite Es1. cbn [bind]. destruct (G2 ltac:(lia)) as [_ G3]. rewrite G3; [reflexivity|].
      intros (_ & _ & _ & S). simpl in S. lia.
  Qed.
  Lemma C20_exact_proof (d : Dht T) f : transforms d f -> checks_sizes d -> 0 < dht_len d ->
    let enough k := dht_inplace_scratch d <= k * dht_len d /\ dht_oop_scratch d = 0 in
    ((exists g, transforms (mixed_radix_2xn d) g) <-> enough 2) /\
    ((exists g, transforms (mixed_radix_3xn d) g) <-> enough 3) /\
    ((exists g, transforms (mixed_radix_4xn d) g) <-> enough 4) /\
    ((exists g, transforms (mixed_radix_5xn d) g) <-> enough 5) /\
    ((exists g, transforms (mixed_radix_6xn d) g) <-> enough 6).
  Proof.
    intros Hd Hc Hn. cbv zeta.
    split; [exact (exact_2xn d f Hd Hn Hc)|]. split; [exact (exact_3xn d f Hd Hn Hc)|].
    split; [exact (exact_4xn d f Hd Hn Hc)|]. split; [exact (exact_5xn d f Hd Hn Hc)|exact (exact_6xn d f Hd Hn Hc)].
  Qed.
  Lemma C20_partial_proof (d : Dht T) f : transforms d f -> modest d ->
    Forall (fun D => exists g, transforms D g)
      [mixed_radix_2xn d; mixed_radix_3xn d; mixed_radix_4xn d; mixed_radix_5xn d; mixed_radix_6xn d].
  Proof.
    intros Hd Hm. pose proof (proj2 (transforms_ok _ _) Hd) as K.
    assert (F : forall k, 0 < k -> fits k d) by (intros; now apply fits_modest).
    constructor; [|constructor; [|constructor; [|constructor; [|constructor; [|constructor]]]]].
    - exact (ex_intro _ _ (proj1 (transforms_ok _ _) (proj1 (mixed_radix_2xn_ok d f K (F 2 ltac:(lia)))))).
    - exact (ex_intro _ _ (proj1 (transforms_ok _ _) (proj1 (mixed_radix_3xn_ok d f K (F 3 ltac:(lia)))))).
    - exact (ex_intro _ _ (proj1 (transforms_ok _ _) (proj1 (mixed_radix_4xn_ok d f K (F 4 ltac:(lia)))))).
    - exact (ex_intro _ _ (proj1 (transforms_ok _ _) (proj1 (mixed_radix_5xn_ok d f K (F 5 ltac:(lia)))))).
    - exact (ex_intro _ _ (proj1 (transforms_ok _ _) (proj1 (mixed_radix_6xn_ok d f K (F 6 ltac:(lia)))))).
  Qed.

  (** ** C26 *)
  Lemma C26_lengths_proof (m : profile) :
    (forall n, dht_len (@dht_naive T NT n) = n) /\
    (forall dw dh : Dht T, dht_len (mixed_radix dw dh) = dht_len dw * dht_len dh) /\
    (forall d : Dht T, dht_len (mixed_radix_2xn d) = 2 * dht_len d /\ dht_len (mixed_radix_3xn d) = 3 * dht_len d /\
       dht_len (mixed_radix_4xn d) = 4 * dht_len d /\ dht_len (mixed_radix_5xn d) = 5 * dht_len d /\
       dht_len (mixed_radix_6xn d) = 6 * dht_len d) /\
    (forall dq dh d : Dht T, split_radix dq dh = Ok d -> dht_len d = 4 * dht_len dq) /\
    (forall n (d : Dht T), radix4 n = Ok d -> dht_len d = n) /\
    (forall d D : Dht T, raders m d = Ok D -> dht_len D = dht_len d + 1).
  Proof.
    split; [intros n; cbn; unfold naive_twiddles; now rewrite map_length, seq_length|]. split; [reflexivity|]. split; [intros; repeat split; reflexivity|]. split; [|split].
    - intros dq dh d E. destruct (split_radix_len dq dh d E) as (_ & L & _). lia.
    - intros n d E. now destruct (radix4_sizes n d E).
    - intros d D E. now destruct (raders_len m d D E).
  Qed.

  (** ** C27 *)
  Lemma C27_radix4_proof n : (@radix4 T NT n = Panic <-> forall k, n <> 2 ^ k) /\
    ((exists k, n = 2 ^ k) -> exists d, @radix4 T NT n = Ok d).
  Proof.
    assert (S : forall k, n = 2 ^ k -> exists d, @radix4 T NT n = Ok d).
    { intros k ->. destruct (radix4_ok (T := T) k) as (d & E & _). eauto. }
    split; [split|].
    - intros E k K. destruct (S k K) as [d E']. congruence.
    - apply radix4_panics.
    - intros [k K]. eauto.
  Qed.
  Lemma C27_split_proof (dq dh : Dht T) : (split_radix dq dh = Panic <-> dht_len dh <> 2 * dht_len dq) /\
    (dht_len dh = 2 * dht_len dq -> exists d, split_radix dq dh = Ok d).
  Proof.
    unfold split_radix, rassert. destruct (Nat.eqb_spec (dht_len dh) (dht_len dq * 2)) as [E|E]; cbn [bind].
    - split; [split; [discriminate|lia]|eauto].
    - split; [split; [lia|auto]|lia].
  Qed.
  Lemma C27_rader_proof m (d : Dht T) f : transforms d f -> dht_len d <> 1 -> (N.of_nat (dht_len d + 1) <= 2 ^ 32)%N ->
    (raders m d = Panic <-> ~ nprime (N.of_nat (dht_len d + 1))) /\
    (nprime (N.of_nat (dht_len d + 1)) -> exists D, raders m d = Ok D).
  Proof.
    intros Hd H1 Hs. split; [split|].
    - intros E P. destruct (C19_rader_proof m d f Hd P H1 Hs) as (D & g & E' & _). congruence.
    - apply raders_composite.
    - intros P. destruct (C19_rader_proof m d f Hd P H1 Hs) as (D & g & E' & _). eauto.
  Qed.
  Lemma C27_refuted_proof m : exists d : Dht T, assembled m library d /\ nprime (N.of_nat (dht_len d + 1)) /\ raders m d = Panic.
  Proof.
    exists butterfly1. split; [apply as_bf1|]. split; [apply miller_rabin_ok; reflexivity|now apply raders_two].
  Qed.
  (** beyond 2^32 the root search overflows *)
  Lemma C27_large_proof (d : Dht T) : dht_len d = N.to_nat 4294967310 ->
    nprime (N.of_nat (dht_len d + 1)) /\ raders Debug d = Panic.
  Proof.
    intros L. destruct root_search_overflow as (P & E & _).
    assert (Ln : N.of_nat (dht_len d + 1) = 4294967311%N) by (rewrite Nat2N.inj_add, L, N2Nat.id; reflexivity).
    split; [now rewrite Ln|]. unfold raders. cbv zeta. destruct (miller_rabin (N.of_nat (dht_len d + 1))); [|reflexivity].
    cbn [rassert bind]. unfold raders_roots. rewrite Ln, E. reflexivity.
  Qed.

  (** ** C37 *)
  Lemma roots_profile p : nprime (N.of_nat p) -> 3 <= p -> (N.of_nat p <= 2 ^ 32)%N ->
    raders_roots Debug p = raders_roots Release p.
  Proof.
    intros P H3 H. unfold raders_roots.
    destruct (primitive_root_ok Debug (N.of_nat p) P) as (r1 & E1 & R1 & O1 & M1); [split; [lia|auto]|].
    destruct (primitive_root_ok Release (N.of_nat p) P) as (r2 & E2 & R2 & O2 & M2); [split; [lia|auto]|].
    assert (r1 = r2); [|subst; now rewrite E1, E2].
    destruct (N.lt_total r1 r2) as [L|[L|L]]; auto; exfalso.
    - apply (M2 r1); auto. lia.
    - apply (M1 r2); auto. lia.
  Qed.
  Lemma C37_proof (d : Dht T) f : transforms d f -> nprime (N.of_nat (dht_len d + 1)) -> dht_len d <> 1 ->
    (N.of_nat (dht_len d + 1) <= 2 ^ 32)%N ->
    exists D1 D2 g, raders Debug d = Ok D1 /\ raders Release d = Ok D2 /\ transforms D1 g /\ transforms D2 g.
  Proof.
    intros Hd Pp H1 Hs. pose proof (proj2 (transforms_ok _ _) Hd) as Kd.
    assert (H2 : 2 <= dht_len d).
    { destruct Pp as [Pp _]. destruct (dht_len d) as [|[|n]]; [simpl in Pp; lia|congruence|lia]. }
    destruct (raders_ok Debug d f Kd Pp H2 Hs) as (D1 & r1 & s1 & E1 & R1 & _ & _ & _ & _ & _ & K1 & _).
    destruct (raders_ok Release d f Kd Pp H2 Hs) as (D2 & r2 & s2 & E2 & R2 & _ & _ & _ & _ & _ & K2 & _).
    rewrite <- roots_profile, R1 in R2 by (auto; lia). injection R2 as <- <-.
    exists D1, D2. eexists. split; [exact E1|]. split; [exact E2|].
    split; [exact (proj1 (transforms_ok _ _) K1)|exact (proj1 (transforms_ok _ _) K2)].
  Qed.
  Lemma C37_overflow_proof m : (exists a b len, mul_mod m a b len <> Ok ((a * b) mod len)) /\
    forall a b len, a < len -> b < len -> (N.of_nat len <= 2 ^ 32)%N -> mul_mod m a b len = Ok ((a * b) mod len).
  Proof.
    split.
    - exists (N.to_nat (2 ^ 32)), (N.to_nat (2 ^ 32)), (N.to_nat (2 ^ 32 + 1)). unfold mul_mod. rewrite !N2Nat.id.
      destruct m; [discriminate|]. change (u64 Release (2 ^ 32 * 2 ^ 32)) with (Ok 0%N). cbn [bind].
      intros E. assert (X : forall x y : nat, Ok x = Ok y -> x = y) by congruence. apply X in E. clear X. rewrite <- N2Nat.inj_mul, <- N2Nat.inj_mod in E. apply N2Nat.inj in E. discriminate E.
    - intros a b len Ha Hb Hl. unfold mul_mod. rewrite u64_ok.
      + cbn [bind]. f_equal. rewrite <- Nat2N.inj_mul, <- Nat2N.inj_mod. apply Nat2N.id.
      + change two64 with (2 ^ 32 * 2 ^ 32)%N. apply N.mul_lt_mono; lia.
  Qed.
End Contract.

(** ** C36 *)
Section Iter.
  Context {T S : Type}.
  Lemma C36_zipped_proof n fn (xs : list (list T * list T)) r1 r2 (st : S) :
    0 < n -> Forall (fun x => length (fst x) = n /\ length (snd x) = n) xs ->
    (length r1 < n \/ length r2 < n) -> length r2 <= length r1 ->
    iter_chunks_zipped (concat (map fst xs) ++ r1) (concat (map snd xs) ++ r2) n fn st =
    ('(ys, st') <- visit2 fn xs st ;;
     Ok (concat (map fst ys) ++ r1, concat (map snd ys) ++ r2, st', (length r1 =? 0) && (length r2 =? 0))).
  Proof.
    intros. rewrite iter_zipped_visit by auto. destruct (visit2 fn xs st) as [[ys st']| | |]; cbn [bind]; auto.
    do 2 f_equal. destruct (Nat.eqb_spec (length r1) 0), (Nat.eqb_spec (length r2) 0); auto; lia.
  Qed.
End Iter.
Lemma C36_refuted_proof :
  iter_chunks_zipped [1; 2] [3; 4; 5] 2 (fun a b (u : unit) => Ok (a, b, u)) tt = Ok ([1; 2], [3; 4; 5], tt, true).
Proof. reflexivity. Qed.
