(** * Consequences at the level of the API for instances that compute the DHT *)
From Verif Require Import Lemmas RealDHT DHTTheory Radix4Real.
From Verif Require Export ApiProof TreeReal.
From Coq Require Import Lia Reals Lra.
Local Open Scope R_scope.

Section Api.
  Context (cst : R).
  Local Hint Extern 0 (Num R) => exact (RNum cst) : typeclass_instances.
  Variable d : Dht R.
  Hypothesis D : transforms d dht_spec.
  Hypothesis Hn : (0 < dht_len d)%nat.

  Lemma process_one x : length x = dht_len d -> dht_process d x = Ok (dht_spec x).
  Proof.
    intros L. assert (C : chunks_of (dht_len d) [x]) by (split; [discriminate|repeat constructor; auto]).
    pose proof (process_transforms d dht_spec [x] D Hn C) as E. simpl in E. now rewrite !app_nil_r in E.
  Qed.

  Lemma chunks_map xs : chunks_of (dht_len d) xs -> chunks_of (dht_len d) (map dht_spec xs).
  Proof.
    intros [N F]. split; [destruct xs; [easy|discriminate]|].
    rewrite Forall_map. eapply Forall_impl; [|exact F]. intros. now rewrite dht_spec_length.
  Qed.

  Lemma api_twice xs : chunks_of (dht_len d) xs ->
    exists y, dht_process d (concat xs) = Ok y /\
              dht_process d y = Ok (map (fun v => INR (dht_len d) * v) (concat xs)).
  Proof.
    intros C. exists (concat (map dht_spec xs)). split; [now apply process_transforms|].
    rewrite (process_transforms d dht_spec) by auto using chunks_map. f_equal.
    destruct C as [_ F]. induction F as [|x xs Hx _ IH]; auto.
    cbn [map concat]. rewrite map_app, dht_spec_involution, IH, Hx. reflexivity.
  Qed.

  Lemma lincomb_length a b x y : length (lincomb a b x y) = length x.
  Proof. unfold lincomb. now rewrite map_length, seq_length. Qed.
  Lemma lincomb_cons a b u v x y : lincomb a b (u :: x) (v :: y) = (a * u + b * v) :: lincomb a b x y.
  Proof. unfold lincomb. cbn [length seq map nth]. f_equal. rewrite <- seq_shift, map_map. reflexivity. Qed.
  Lemma lincomb_app a b x1 y1 x2 y2 : length x1 = length y1 ->
    lincomb a b (x1 ++ x2) (y1 ++ y2) = lincomb a b x1 y1 ++ lincomb a b x2 y2.
  Proof.
    revert y1. induction x1 as [|u x1 IH]; intros [|v y1] L; try discriminate; auto.
    cbn [app]. rewrite !lincomb_cons. cbn [app]. now rewrite IH by (injection L; auto).
  Qed.

  Lemma api_linear a b xs ys : chunks_of (dht_len d) xs -> chunks_of (dht_len d) ys -> length xs = length ys ->
    exists X Y, dht_process d (concat xs) = Ok X /\ dht_process d (concat ys) = Ok Y /\
                dht_process d (lincomb a b (concat xs) (concat ys)) = Ok (lincomb a b X Y).
  Proof.
    intros C1 C2 L. exists (concat (map dht_spec xs)), (concat (map dht_spec ys)).
    split; [now apply process_transforms|]. split; [now apply process_transforms|].
    set (zs := map (fun p => lincomb a b (fst p) (snd p)) (combine xs ys)).
    assert (Ez : lincomb a b (concat xs) (concat ys) = concat zs /\
                 lincomb a b (concat (map dht_spec xs)) (concat (map dht_spec ys)) = concat (map dht_spec zs) /\
                 Forall (fun z => length z = dht_len d) zs).
    { destruct C1 as [_ F1], C2 as [_ F2]. unfold zs. clear zs. revert ys L F2. induction F1 as [|x xs Hx F1 IH]; intros [|y ys] L F2; try discriminate.
      - simpl. auto.
      - apply Forall_cons_iff in F2 as [Hy F2]. destruct (IH ys ltac:(injection L; auto) F2) as (E1 & E2 & E3).
        cbn [concat combine map fst snd]. rewrite !lincomb_app by (rewrite ?dht_spec_length; lia).
        rewrite E1, E2, dht_spec_linear by lia. split; [auto|]. split; [auto|]. constructor; auto. rewrite lincomb_length. auto. }
    destruct Ez as (E1 & E2 & E3). rewrite E1, E2. apply process_transforms; auto. split; auto.
    destruct C1 as [N _]. unfold zs. destruct xs; [easy|]. destruct ys; [discriminate|discriminate].
  Qed.

  Lemma api_parseval xs : chunks_of (dht_len d) xs ->
    exists Xs, dht_process d (concat xs) = Ok (concat Xs) /\
      Forall2 (fun x X => length X = dht_len d /\
        rsum (dht_len d) (fun k => nth k X 0 * nth k X 0) = INR (dht_len d) * rsum (dht_len d) (fun j => nth j x 0 * nth j x 0) /\
        nth 0 X 0 = rsum (dht_len d) (fun j => nth j x 0)) xs Xs.
  Proof.
    intros C. exists (map dht_spec xs). split; [now apply process_transforms|].
    destruct C as [_ F]. induction F as [|x xs Hx _ IH]; constructor; auto.
    rewrite dht_spec_length. split; auto. rewrite <- Hx. split; [apply dht_spec_parseval|].
    apply dht_spec_sum. intros ->. simpl in Hx. lia.
  Qed.

  Lemma api_rev_tail x : length x = dht_len d ->
    exists X, dht_process d x = Ok X /\ dht_process d (rev_tail x) = Ok (rev_tail X).
  Proof.
    intros L. exists (dht_spec x). split; [now apply process_one|].
    rewrite process_one by (now rewrite rev_tail_length). f_equal. apply dht_spec_rev_tail.
  Qed.
  Lemma api_rev x : length x = dht_len d ->
    exists X Y, dht_process d x = Ok X /\ dht_process d (rev x) = Ok Y /\ length Y = dht_len d /\
      forall k, (k < dht_len d)%nat ->
        nth k Y 0 = cos (ang (dht_len d) k) * nth (neg_idx (dht_len d) k) X 0 - sin (ang (dht_len d) k) * nth k X 0.
  Proof.
    intros L. exists (dht_spec x), (dht_spec (rev x)). split; [now apply process_one|].
    split; [apply process_one; now rewrite rev_length|]. split; [now rewrite dht_spec_length, rev_length|].
    intros k Hk. rewrite <- L in *. now apply dht_spec_rev.
  Qed.
  Lemma api_conv x y : length x = dht_len d -> length y = dht_len d ->
    exists X Y Z, dht_process d x = Ok X /\ dht_process d y = Ok Y /\ dht_process d (conv x y) = Ok Z /\
      length Z = dht_len d /\
      forall k, (k < dht_len d)%nat -> let k' := neg_idx (dht_len d) k in
        nth k Z 0 = nth k X 0 * ((nth k Y 0 + nth k' Y 0) / 2) + nth k' X 0 * ((nth k Y 0 - nth k' Y 0) / 2).
  Proof.
    intros Lx Ly. assert (Lc : length (conv x y) = dht_len d) by (unfold conv; now rewrite map_length, seq_length).
    exists (dht_spec x), (dht_spec y), (dht_spec (conv x y)). repeat (split; [now apply process_one|]).
    split; [now rewrite dht_spec_length|].
    intros k Hk. cbv zeta. rewrite <- Lx in *. apply (dht_spec_conv x y k); auto.
  Qed.
End Api.

(** ** Radix4 at every power of two *)
Section Radix4.
  Context (cst : R).
  Local Hint Extern 0 (Num R) => exact (RNum cst) : typeclass_instances.
  Lemma api_radix4_char k : exists d : Dht R, radix4 (2 ^ k) = Ok d /\ dht_len d = (2 ^ k)%nat /\
    transforms d (fun x => dht_spec (map (fun j => nth (r4_index k j) x 0) (seq 0 (length x)))).
  Proof.
    destruct (Radix4Proof.radix4_ok (T := R) k) as (d & E & O & _ & L & _). exists d. split; auto. split; auto.
    apply transforms_ok. apply (dht_ok_ext _ _ _ O). intros x Hx. apply radix4_len_real. lia.
  Qed.
  Lemma api_radix4_wrong k : (7 <= k)%nat -> exists (d : Dht R) x y, radix4 (2 ^ k) = Ok d /\
    length x = (2 ^ k)%nat /\ dht_process d x = Ok y /\ y <> dht_spec x.
  Proof.
    intros Hk. destruct (Radix4Proof.radix4_ok (T := R) k) as (d & E & O & _ & L & _).
    assert (P : (2 ^ k <> 0)%nat) by (apply Nat.pow_nonzero; lia).
    assert (Lu : length (unit3 (2 ^ k)) = (2 ^ k)%nat) by (unfold unit3; now rewrite map_length, seq_length).
    exists d, (unit3 (2 ^ k)), (Radix4Proof.radix4_len_fun k (unit3 (2 ^ k))).
    split; auto. split; auto. split; [|apply radix4_large_wrong; auto].
    apply RadersContract.dht_process_ok; auto; lia.
  Qed.
End Radix4.
