(** * Consequences of the contract at the level of the API *)
From Verif Require Import Lemmas RadersContract.
From Verif Require Export TreeProof.
From Coq Require Import Lia NArith.

Section Lawless.
  Context {T : Type} {NT : Num T}.

  Lemma process_transforms (d : Dht T) f xs : transforms d f -> 0 < dht_len d -> chunks_of (dht_len d) xs ->
    dht_process d (concat xs) = Ok (concat (map f xs)).
  Proof.
    intros Hd Hn C. unfold dht_process.
    destruct (tr_inplace _ _ Hd xs (repeat nzero (dht_inplace_scratch d)) Hn C) as (s & E & _).
    - rewrite repeat_length. lia.
    - now rewrite E.
  Qed.

  Lemma sized_chunks (d : Dht T) (b : list T) : 0 < dht_len d -> dht_len d <= length b -> length b mod dht_len d = 0 ->
    exists xs, b = concat xs /\ chunks_of (dht_len d) xs.
  Proof.
    intros Hn L M. destruct (valid_mult _ _ Hn L M) as (m & Hm & E).
    destruct (chunks_exist _ _ _ E) as (xs & -> & Lx & F). exists xs. split; auto. split; auto.
    intros ->. simpl in Lx. lia.
  Qed.
  Lemma chunks_sized (d : Dht T) (xs : list (list T)) : 0 < dht_len d -> chunks_of (dht_len d) xs ->
    dht_len d <= length (concat xs) /\ length (concat xs) mod dht_len d = 0.
  Proof.
    intros Hn [N F]. rewrite (concat_length_const _ _ F). split.
    - destruct xs; [easy|simpl; lia].
    - apply Nat.mod_mul. lia.
  Qed.

  Section Tree.
    Variables (m : profile) (P : Dht T -> Prop).
    Hypothesis HP : forall d, P d -> well_behaved d.
    Variable d : Dht T.
    Hypothesis A : assembled m (over P) d.

    Lemma over_user d' : al_user (over P) d' -> (exists f, dht_ok d' f) /\ modest_pos d'.
    Proof.
      intros U. destruct (HP d' U) as [[f F] M]. split; [exists f; now apply transforms_ok|intros _; auto].
    Qed.
    Lemma over_rader p : al_rader (over P) p -> (N.of_nat p <= 2 ^ 32)%N.
    Proof. auto. Qed.
    Lemma tree_transforms : exists f, transforms d f.
    Proof.
      destruct (assembled_ok m (over P) over_user over_rader d A) as [f F]. exists f. now apply transforms_ok.
    Qed.
    Lemma tree_modest : 0 < dht_len d -> modest d.
    Proof. intros. exact (assembled_modest m (over P) over_user d A H). Qed.

    Lemma tree_same_result buffer output scratch scratch2 : 0 < dht_len d ->
      sized_inplace d buffer scratch -> sized_oop d buffer output scratch2 ->
      exists result s1 i s2,
        dht_process_with_scratch d buffer scratch = Ok (result, s1) /\
        dht_process_oop d buffer output scratch2 = Ok (i, result, s2).
    Proof.
      intros Hn (B1 & B2 & B3) (O1 & O2 & O3 & O4). destruct tree_transforms as [f F].
      destruct (sized_chunks d buffer Hn B1 B2) as (xs & -> & C).
      destruct (tr_inplace _ _ F xs scratch Hn C B3) as (s1 & E1 & _).
      destruct (tr_oop _ _ F xs output scratch2 Hn C (eq_sym O1) O4) as (i & s2 & E2 & _).
      eauto 10.
    Qed.

    Lemma tree_scratch_inplace buffer s1 s2 : 0 < dht_len d ->
      sized_inplace d buffer s1 -> sized_inplace d buffer s2 ->
      exists result s1' s2',
        dht_process_with_scratch d buffer s1 = Ok (result, s1') /\
        dht_process_with_scratch d buffer s2 = Ok (result, s2') /\
        length result = length buffer /\ length s1' = length s1 /\
        skipn (dht_inplace_scratch d) s1' = skipn (dht_inplace_scratch d) s1.
    Proof.
      intros Hn (B1 & B2 & B3) (_ & _ & B4). destruct tree_transforms as [f F].
      destruct (sized_chunks d buffer Hn B1 B2) as (xs & -> & C).
      destruct (tr_inplace _ _ F xs s1 Hn C B3) as (s1' & E1 & L1 & S1).
      destruct (tr_inplace _ _ F xs s2 Hn C B4) as (s2' & E2 & _).
      exists (concat (map f xs)), s1', s2'. split; [auto|]. split; [auto|]. split; [|auto].
      destruct C as [_ C]. rewrite !(concat_length_const (dht_len d)), map_length; auto.
      rewrite Forall_map. apply (Forall_impl _ (tr_len _ _ F) C).
    Qed.
    Lemma tree_scratch_oop input o1 o2 s1 s2 : 0 < dht_len d ->
      sized_oop d input o1 s1 -> sized_oop d input o2 s2 ->
      exists result i1 i2 s1' s2',
        dht_process_oop d input o1 s1 = Ok (i1, result, s1') /\
        dht_process_oop d input o2 s2 = Ok (i2, result, s2') /\
        length result = length o1 /\ length i1 = length input /\ length s1' = length s1 /\
        skipn (dht_oop_scratch d) s1' = skipn (dht_oop_scratch d) s1.
    Proof.
      intros Hn (O1 & B1 & B2 & B3) (O2 & _ & _ & B4). destruct tree_transforms as [f F].
      destruct (sized_chunks d input Hn B1 B2) as (xs & -> & C).
      destruct (tr_oop _ _ F xs o1 s1 Hn C (eq_sym O1) B3) as (i1 & s1' & E1 & L1 & L2 & S1).
      destruct (tr_oop _ _ F xs o2 s2 Hn C (eq_sym O2) B4) as (i2 & s2' & E2 & _).
      exists (concat (map f xs)), i1, i2, s1', s2'. split; [auto|]. split; [auto|]. split; [|auto].
      rewrite <- O1. destruct C as [_ C]. rewrite !(concat_length_const (dht_len d)), map_length; auto.
      rewrite Forall_map. apply (Forall_impl _ (tr_len _ _ F) C).
    Qed.

    Lemma tree_chunkwise xs : 0 < dht_len d -> chunks_of (dht_len d) xs ->
      exists ys,
        Forall2 (fun x y => length y = dht_len d /\
          (forall scratch, dht_inplace_scratch d <= length scratch ->
             exists s', dht_process_with_scratch d x scratch = Ok (y, s')) /\
          (forall output scratch, length output = length x -> dht_oop_scratch d <= length scratch ->
             exists i' s', dht_process_oop d x output scratch = Ok (i', y, s'))) xs ys /\
        (forall scratch, dht_inplace_scratch d <= length scratch ->
           exists s', dht_process_with_scratch d (concat xs) scratch = Ok (concat ys, s')) /\
        (forall output scratch, length output = length (concat xs) -> dht_oop_scratch d <= length scratch ->
           exists i' s', dht_process_oop d (concat xs) output scratch = Ok (i', concat ys, s')).
    Proof.
      intros Hn C. destruct tree_transforms as [f F]. exists (map f xs). split; [|split].
      - destruct C as [_ C]. clear A. induction C as [|x xs Hx _ IH]; constructor; auto.
        assert (C1 : chunks_of (dht_len d) [x]) by (split; [discriminate|repeat constructor; auto]).
        split; [now apply (tr_len _ _ F)|]. split.
        + intros s Hs. destruct (tr_inplace _ _ F [x] s Hn C1 Hs) as (s' & E & _).
          simpl in E. rewrite !app_nil_r in E. eauto.
        + intros o s Ho Hs. destruct (tr_oop _ _ F [x] o s Hn C1) as (i & s' & E & _); auto.
          { simpl. now rewrite app_nil_r. }
          simpl in E. rewrite !app_nil_r in E. eauto.
      - intros s Hs. destruct (tr_inplace _ _ F xs s Hn C Hs) as (s' & E & _). eauto.
      - intros o s Ho Hs. destruct (tr_oop _ _ F xs o s Hn C Ho Hs) as (i & s' & E & _). eauto.
    Qed.

    Lemma tree_panics : ~ P d -> d <> butterfly1 -> 0 < dht_len d ->
      (forall buffer scratch,
         dht_process_with_scratch d buffer scratch = Panic <-> ~ sized_inplace d buffer scratch) /\
      (forall input output scratch,
         dht_process_oop d input output scratch = Panic <-> ~ sized_oop d input output scratch).
    Proof.
      intros N1 N2 Hn. destruct tree_transforms as [f F].
      destruct (assembled_strict m (over P) over_user over_rader d A N1 N2 Hn) as [S1 S2]. split.
      - intros b s. split; [|apply S1]. intros E (B1 & B2 & B3).
        destruct (sized_chunks d b Hn B1 B2) as (xs & -> & C).
        destruct (tr_inplace _ _ F xs s Hn C B3) as (s' & E' & _). congruence.
      - intros i o s. split; [|apply S2]. intros E (O1 & B1 & B2 & B3).
        destruct (sized_chunks d i Hn B1 B2) as (xs & -> & C).
        destruct (tr_oop _ _ F xs o s Hn C (eq_sym O1) B3) as (i' & s' & E' & _). congruence.
    Qed.

    Lemma tree_inert : dht_len d = 0 ->
      (forall buffer scratch, dht_process_with_scratch d buffer scratch = Ok (buffer, scratch)) /\
      (forall input output scratch, dht_process_oop d input output scratch = Ok (input, output, scratch)) /\
      (forall buffer, dht_process d buffer = Ok buffer).
    Proof.
      intros Z. destruct tree_transforms as [f F]. destruct (tr_zero _ _ F Z) as [E1 E2].
      split; auto. split; auto. intros b. unfold dht_process. now rewrite E1.
    Qed.
  End Tree.

  Lemma butterfly1_panics (buffer scratch input output : list T) :
    dht_process_with_scratch butterfly1 buffer scratch = Ok (buffer, scratch) /\
    (dht_process_oop butterfly1 input output scratch = Panic <-> length input <> length output).
  Proof.
    split; [reflexivity|]. simpl. unfold copy_from_slice.
    destruct (Nat.eqb_spec (length output) (length input)); cbn [bind]; split; auto; try discriminate; intros; lia.
  Qed.
End Lawless.

(** ** chunk iteration *)
Section Visit.
  Context {T S : Type}.
  Lemma iter_chunks_go_visit n (fn : list T -> S -> res (list T * S)) : 0 < n ->
    forall xs rest fuel st, Forall (fun x => length x = n) xs -> length rest < n -> length (concat xs ++ rest) < fuel ->
    iter_chunks_go fuel n fn (concat xs ++ rest) st =
    ('(ys, st') <- visit fn xs st ;; Ok (concat ys ++ rest, st', length rest =? 0)).
  Proof.
    intros Hn. induction xs as [|x xs IH]; intros rest fuel st F Hr Hf.
    - destruct fuel; [lia|]. simpl in *. destruct (Nat.leb_spec n (length rest)); [lia|]. reflexivity.
    - destruct fuel; [lia|]. inversion F as [|? ? Hx F']; subst. cbn [concat visit iter_chunks_go].
      rewrite <- app_assoc. destruct (Nat.leb_spec (length x) (length (x ++ concat xs ++ rest))); [|rewrite app_length in *; lia].
      rewrite split_at_app by auto. cbn [bind]. destruct (fn x st) as [[y st1]| | |]; cbn [bind]; auto.
      rewrite IH; auto.
      + destruct (visit fn xs st1) as [[ys st2]| | |]; cbn [bind]; auto. cbn [concat]. now rewrite <- app_assoc.
      + cbn [concat] in Hf. rewrite !app_length in *. lia.
  Qed.
  Lemma iter_chunks_visit n (fn : list T -> S -> res (list T * S)) xs rest st :
    Forall (fun x => length x = n) xs -> length rest < n ->
    iter_chunks (concat xs ++ rest) n fn st =
    ('(ys, st') <- visit fn xs st ;; Ok (concat ys ++ rest, st', length rest =? 0)).
  Proof. intros. apply iter_chunks_go_visit; auto; lia. Qed.

  Lemma iter_zipped_go_visit n fn u : 0 < n ->
    forall (xs : list (list T * list T)) r1 r2 fuel (st : S),
    Forall (fun x => length (fst x) = n /\ length (snd x) = n) xs ->
    (length r1 < n \/ length r2 < n) -> length (concat (map fst xs) ++ r1) < fuel ->
    iter_chunks_zipped_go fuel n fn u (concat (map fst xs) ++ r1) (concat (map snd xs) ++ r2) st =
    ('(ys, st') <- visit2 fn xs st ;;
     Ok (concat (map fst ys) ++ r1, concat (map snd ys) ++ r2, st', negb u && (length r1 =? 0))).
  Proof.
    intros Hn. induction xs as [|[x1 x2] xs IH]; intros r1 r2 fuel st F Hr Hf.
    - destruct fuel; [lia|]. simpl in *.
      destruct (Nat.leb_spec n (length r1)), (Nat.leb_spec n (length r2)); try lia; reflexivity.
    - destruct fuel; [lia|]. apply Forall_cons_iff in F as [[H1 H2] F']. cbn [fst snd] in H1, H2.
      cbn [concat map fst snd visit2 iter_chunks_zipped_go].
      rewrite <- !app_assoc.
      destruct (Nat.leb_spec n (length (x1 ++ concat (map fst xs) ++ r1))); [|rewrite app_length in *; lia].
      destruct (Nat.leb_spec n (length (x2 ++ concat (map snd xs) ++ r2))); [|rewrite app_length in *; lia].
      cbn [andb]. rewrite split_at_app by auto. cbn [bind]. rewrite split_at_app by auto. cbn [bind].
      destruct (fn x1 x2 st) as [[[y1 y2] st1]| | |]; cbn [bind]; auto.
      rewrite IH; auto.
      + destruct (visit2 fn xs st1) as [[ys st2]| | |]; cbn [bind]; auto. cbn [concat map fst snd]. now rewrite <- !app_assoc.
      + cbn [concat map fst] in Hf. rewrite !app_length in *. lia.
  Qed.
  Lemma iter_zipped_visit n fn (xs : list (list T * list T)) r1 r2 (st : S) : 0 < n ->
    Forall (fun x => length (fst x) = n /\ length (snd x) = n) xs ->
    (length r1 < n \/ length r2 < n) ->
    iter_chunks_zipped (concat (map fst xs) ++ r1) (concat (map snd xs) ++ r2) n fn st =
    ('(ys, st') <- visit2 fn xs st ;;
     Ok (concat (map fst ys) ++ r1, concat (map snd ys) ++ r2, st', length r1 =? 0)).
  Proof.
    intros Hn F Hr. unfold iter_chunks_zipped.
    assert (L : length (concat (map fst xs)) = length (concat (map snd xs))).
    { assert (F1 : Forall (fun x => length x = n) (map fst xs)) by (rewrite Forall_map; eapply Forall_impl; [|exact F]; simpl; intuition).
      assert (F2 : Forall (fun x => length x = n) (map snd xs)) by (rewrite Forall_map; eapply Forall_impl; [|exact F]; simpl; intuition).
      rewrite (concat_length_const _ _ F1), (concat_length_const _ _ F2), !map_length. reflexivity. }
    rewrite !app_length. destruct (Nat.ltb_spec (length (concat (map snd xs)) + length r2) (length (concat (map fst xs)) + length r1)) as [Hlt|Hge].
    - assert (Hr12 : length r2 < length r1) by lia.
      rewrite split_at_ok by (rewrite app_length; lia). cbn [bind].
      replace (length (concat (map snd xs)) + length r2) with (length (concat (map fst xs)) + length r2) by lia.
      rewrite firstn_app_2, skipn_app, skipn_all2 by lia. simpl app.
      replace (length (concat (map fst xs)) + length r2 - length (concat (map fst xs))) with (length r2) by lia.
      assert (Lf : length (firstn (length r2) r1) = length r2) by (rewrite firstn_length; lia).
      rewrite (iter_zipped_go_visit n fn true Hn); auto; [|lia].
      destruct (visit2 fn xs st) as [[ys st']| | |]; cbn [bind]; auto. cbn [negb andb].
      rewrite <- app_assoc, firstn_skipn. destruct (Nat.eqb_spec (length r1) 0); [lia|]. reflexivity.
    - rewrite (iter_zipped_go_visit n fn false Hn); auto. rewrite app_length. lia.
  Qed.
End Visit.
