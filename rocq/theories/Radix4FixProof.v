(** * The changed Radix4 computes the DHT; the permutation of the original *)
From Verif Require Import Lemmas Contract ButterfliesProof NxnProof NxnInst Radix4Proof RealDHT DHTTheory MixedReal
  ButterfliesReal NxnReal Radix4Real ApiReal Radix4Fix.
From Coq Require Import Reals Lra Lia List Arith Permutation FinFun.
Import ListNotations.

Section Pure.
  Context {T : Type} {NT : Num T}.
  Variable b : nat.

  (** the reordering: quarter [q] of a reversed block holds the reversed quarter [3 - q] *)
  Fixpoint fix_fun (l : nat) (reversed : bool) (g : nat -> T) : list T :=
    match l with
    | 0 => map (fun i => g (if reversed then b - 1 - i else i)) (seq 0 b)
    | S l' => flat_map (fun q => fix_fun l' (if reversed then negb (q =? 3) else q =? 3)
                                         (fun j => g (4 * j + (if reversed then 3 - q else q)))) (seq 0 4)
    end.

  Lemma fix_fun_length l : forall reversed g, length (fix_fun l reversed g) = b * 4 ^ l.
  Proof.
    induction l as [|l IH]; intros; cbn [fix_fun].
    - rewrite map_length, seq_length. simpl. lia.
    - rewrite (flat_map_length_const _ _ (b * 4 ^ l)), seq_length by auto. simpl (4 ^ S l). lia.
  Qed.

  Lemma fix_fun_ext l : forall r (g g' : nat -> T),
    (forall j, g j = g' j) -> fix_fun l r g = fix_fun l r g'.
  Proof.
    induction l as [|l IH]; intros r g g' E; cbn [fix_fun].
    - apply map_ext. intros. apply E.
    - apply flat_map_ext_in. intros. apply IH. intros. apply E.
  Qed.

  Definition fix_algo (m : nat) (fb : list T -> list T) (x : list T) : list T :=
    block_fun b m fb m (fix_fun m false (fun j => nth j x nzero)).

  Hypothesis b_pos : 0 < b.

  Lemma prepare_fixed_ok : forall l fuel reversed (input output : list T) stride,
    l < fuel -> 0 < stride -> b * 4 ^ l <= length output ->
    (b * 4 ^ l - 1) * stride < length input ->
    prepare_radix4_fixed fuel reversed (b * 4 ^ l) b input output stride =
    Ok (fix_fun l reversed (fun j => nth (j * stride) input nzero) ++ skipn (b * 4 ^ l) output).
  Proof.
    induction l as [|l IH]; intros fuel reversed input output stride Hf Hs Lo Li;
      (destruct fuel as [|fuel]; [lia|]); cbn [prepare_radix4_fixed].
    - pose proof (prepare_ok b b_pos 0 (S fuel) reversed input output stride ltac:(lia) Hs Lo Li) as E.
      cbn [prepare_radix4] in E. simpl (4 ^ 0) in *. rewrite Nat.mul_1_r in *. rewrite Nat.eqb_refl in *.
      rewrite E. reflexivity.
    - pose proof (pow4_pos l) as Hp4.
      assert (E4 : 4 ^ S l = 4 * 4 ^ l) by (simpl; lia).
      destruct (Nat.eqb_spec (b * 4 ^ S l) b) as [E|_]; [nia|].
      assert (Ed : b * 4 ^ S l / 4 = b * 4 ^ l).
      { rewrite E4. replace (b * (4 * 4 ^ l)) with (b * 4 ^ l * 4) by lia. now rewrite Nat.div_mul. }
      rewrite Ed. set (h := b * 4 ^ l) in *. assert (Hh : b * 4 ^ S l = 4 * h) by (unfold h; rewrite E4; lia).
      assert (Hhp : 0 < h) by (unfold h; nia).
      set (ch := fun q => fix_fun l (if reversed then negb (q =? 3) else q =? 3)
                            (fun j => nth ((4 * j + (if reversed then 3 - q else q)) * stride) input nzero)).
      assert (Lch : forall i, length (ch i) = h) by (intros; apply fix_fun_length).
      destruct reversed.
      + match goal with |- for_range ?lo ?hi ?body ?s = _ =>
          destruct (for_range_inv (fun i out =>
            out = firstn ((4 - i) * h) output ++ flat_map ch (seq (4 - i) i) ++ skipn (4 * h) output) lo hi body s)
            as (o' & E & R) end.
        * lia.
        * change (4 - 0) with 4. cbn [seq flat_map app]. now rewrite firstn_skipn.
        * intros i out Hi ->.
          rewrite split_at_ok by nia. cbn [bind]. unfold on_tail.
          assert (Ef : firstn ((4 - i) * h) output = firstn ((3 - i) * h) output ++ slice output ((3 - i) * h) h).
          { replace ((4 - i) * h) with ((3 - i) * h + h) by nia. unfold slice.
            rewrite <- (firstn_skipn ((3 - i) * h) output) at 1. rewrite firstn_app, firstn_all2.
            - f_equal. f_equal. rewrite firstn_length. nia.
            - rewrite firstn_length. lia. }
          assert (Ls : length (slice output ((3 - i) * h) h) = h) by (apply slice_length; nia).
          rewrite Ef, <- app_assoc. rewrite split_at_app by (rewrite firstn_length; nia). cbn [bind].
          rewrite IH; fold h; try lia.
          -- cbn [bind]. eexists. split; [reflexivity|].
             replace (4 - (1 + i)) with (3 - i) by lia. f_equal.
             replace (seq (3 - i) (1 + i)) with ((3 - i) :: seq (4 - i) i)
               by (cbn [seq Nat.add]; f_equal; f_equal; lia).
             cbn [flat_map]. rewrite <- app_assoc. f_equal.
             ++ unfold ch. replace (3 - (3 - i)) with i by lia.
                replace (negb (i =? 0)) with (negb (3 - i =? 3)).
                2:{ destruct i as [|[|[|[|i]]]]; try reflexivity; lia. }
                apply fix_fun_ext. intros j. rewrite nth_skipn. f_equal. lia.
             ++ rewrite skipn_app, Ls, Nat.sub_diag, skipn_all2 by lia. reflexivity.
          -- rewrite !app_length, Ls. lia.
          -- rewrite skipn_length. nia.
        * rewrite E, R, Hh. reflexivity.
      + match goal with |- for_range ?lo ?hi ?body ?s = _ =>
          destruct (for_range_inv (fun i out =>
            out = flat_map ch (seq 0 i) ++ skipn (i * h) output) lo hi body s) as (o' & E & R) end.
        * lia.
        * reflexivity.
        * intros i out Hi ->.
          assert (Lf : length (flat_map ch (seq 0 i)) = i * h).
          { rewrite (flat_map_length_const _ _ h), seq_length; auto. }
          rewrite split_at_ok by nia. cbn [bind]. unfold on_tail.
          rewrite split_at_app by auto. cbn [bind].
          rewrite IH; fold h; try lia.
          -- cbn [bind]. eexists. split; [reflexivity|].
             change (1 + i) with (S i). rewrite seq_S, flat_map_app. cbn [flat_map]. rewrite app_nil_r.
             rewrite <- app_assoc. f_equal. f_equal.
             ++ unfold ch. apply fix_fun_ext. intros j. rewrite nth_skipn. f_equal. simpl (0 + i). lia.
             ++ rewrite skipn_add. reflexivity.
          -- rewrite skipn_length. nia.
          -- rewrite skipn_length. nia.
        * rewrite E, R, Hh. reflexivity.
  Qed.

  Lemma fixed_inst_ok m (d : Dht T) fb :
    dht_ok d fb -> dht_len d = b -> dht_inplace_scratch d = 0 ->
    let len := b * 4 ^ m in
    let inst := boilerplate_dht len len 0 (radix4_fixed_inplace len b d (tw_tail len m))
                                         (radix4_fixed_oop len b d (tw_tail len m)) in
    dht_ok inst (fix_algo m fb) /\ dht_strict inst.
  Proof.
    intros Hd Eb Es len inst. unfold inst. pose proof (pow4_pos m) as Hp.
    assert (Hfb : forall y, length y = b -> length (fb y) = b) by (rewrite <- Eb; apply (ok_len _ _ Hd)).
    assert (Hlen : 0 < len) by (unfold len; nia).
    assert (Hoop : forall i out scr, length i = len -> length out = len ->
      radix4_fixed_oop len b d (tw_tail len m) i out scr = Ok (i, fix_algo m fb i, scr)).
    { intros i out scr Li Lo. unfold radix4_fixed_oop.
      unfold len at 2. rewrite prepare_fixed_ok; fold len; try lia.
      2:{ assert (m < 4 ^ m) by (apply Nat.pow_gt_lin_r; lia). unfold len. nia. }
      cbn [bind]. rewrite <- Lo, skipn_all, app_nil_r.
      assert (Eg : fix_fun m false (fun j => nth (j * 1) i nzero) = fix_fun m false (fun j => nth j i nzero)).
      { apply fix_fun_ext. intros. f_equal. lia. }
      rewrite Eg. set (y := fix_fun m false _).
      assert (Ly : length y = b * 4 ^ m) by apply fix_fun_length.
      destruct (ok_inplace _ _ Hd ltac:(lia) (4 ^ m) y []) as (s' & E & _); [lia|rewrite Eb; lia|rewrite Es; simpl; lia|].
      rewrite E, Eb. cbn [bind].
      rewrite (Nat.mul_comm b 4). replace (4 * b) with (4 * (b * 4 ^ 0)) by (simpl; lia).
      rewrite Lo. unfold len at 1 2 3. rewrite (radix4_cross_ok b b_pos m m 0).
      - cbn [bind]. f_equal. f_equal. f_equal.
        replace b with (b * 4 ^ 0) at 2 by (simpl; lia).
        change fb with (block_fun b m fb 0). now apply cross_fun_block.
      - lia.
      - assert (m < 4 ^ m) by (apply Nat.pow_gt_lin_r; lia). nia.
      - rewrite (map_chunks_length _ (4 ^ m)); auto; lia. }
    apply boilerplate_dht_ok.
    - intros x Hx. apply block_fun_length; auto. apply fix_fun_length.
    - intros _ c scr Lc Ls. unfold radix4_fixed_inplace, copy_from_slice. rewrite Lc, Ls, Nat.eqb_refl. cbn [bind].
      rewrite Hoop by auto. cbn [bind]. eexists. split; [reflexivity|auto].
    - intros _ i out scr Li Lo Ls. rewrite Hoop by auto. eexists _, _. split; [reflexivity|auto].
  Qed.
End Pure.

Lemma r4_pos k : 0 < r4_base k.
Proof. unfold r4_base. destruct k as [|[|[|k]]]; try lia. destruct (S (S (S k)) mod 2 =? 1); lia. Qed.

Lemma radix4_fixed_ok {T : Type} {NT : Num T} k : exists d, radix4_fixed (2 ^ k) = Ok d /\
  dht_ok d (fix_algo (r4_base k) (r4_layers k) (r4_basefun k)) /\ dht_len d = 2 ^ k.
Proof.
  unfold radix4_fixed, rassert.
  assert (Ep : is_power_of_two (2 ^ k) = true) by (apply is_power_of_two_spec; eauto).
  rewrite Ep. cbn [bind].
  destruct (r4_base_ok k) as (d & Ed & Hd & Ld & Sd). rewrite Ed.
  pose proof (r4_pos k) as Hb.
  assert (Et : radix4_twiddles (T := T) (2 ^ k) (r4_base k) = Ok (tw_tail (2 ^ k) (r4_layers k)))
    by (rewrite (r4_len k); now apply radix4_twiddles_ok).
  rewrite Et. cbn [bind]. eexists. split; [reflexivity|].
  pose proof (fixed_inst_ok (r4_base k) Hb (r4_layers k) d _ Hd Ld Sd) as HI. cbv zeta in HI.
  rewrite <- (r4_len k) in HI. destruct HI as [HA _]. exact (conj HA eq_refl).
Qed.

Section Real.
  Local Open Scope R_scope.
  Context (cst : R).
  Local Hint Extern 0 (Num R) => exact (RNum cst) : typeclass_instances.
  Variable b : nat.
  Hypothesis bp : (0 < b)%nat.
  Variable fb : list R -> list R.
  Hypothesis fb_spec : forall y, length y = b -> fb y = dht_spec y.

  Definition in_order (n : nat) (rv : bool) (g : nat -> R) : list R :=
    map (fun j => g (if rv then n - 1 - j else j)%nat) (seq 0 n).

  Lemma fix_real m : forall l rv g, (l <= m)%nat ->
    block_fun b m fb l (fix_fun b l rv g) = dht_spec (in_order (b * 4 ^ l) rv g).
  Proof.
    induction l as [|l IH]; intros rv g Hl.
    - cbn [block_fun fix_fun]. rewrite fb_spec by (now rewrite map_length, seq_length).
      unfold in_order. simpl (4 ^ 0)%nat. rewrite Nat.mul_1_r. reflexivity.
    - cbn [block_fun]. set (h := (b * 4 ^ l)%nat).
      assert (Hh : (0 < h)%nat) by (unfold h; pose proof (pow4_pos l); nia).
      assert (E4 : (b * 4 ^ S l = 4 * h)%nat) by (unfold h; simpl (4 ^ S l)%nat; lia). rewrite E4.
      set (z := in_order (4 * h) rv g).
      assert (Lz : length z = (4 * h)%nat) by (unfold z, in_order; now rewrite map_length, seq_length).
      assert (E : map_chunks h (block_fun b m fb l) (fix_fun b (S l) rv g) = stored 4 h z cst dht_spec).
      { cbn [fix_fun]. rewrite (map_chunks_flat_map _ _ 4 h 0); auto.
        2:{ intros. apply fix_fun_length. }
        unfold stored, half_rev, tab. rewrite (map_chunks_flat_map _ _ 4 h 0); auto.
        2:{ intros. now rewrite map_length, seq_length. }
        apply flat_map_ext_in. intros i Hi. apply in_seq in Hi. rewrite IH by lia. f_equal.
        unfold in_order. fold h. apply map_ext_in. intros j Hj. apply in_seq in Hj. cbv beta.
        unfold z, in_order. cbn [nzero RNum].
        assert (J : ((if i <=? 4 / 2 then j else h - 1 - j) = if i =? 3 then h - 1 - j else j)%nat).
        { change (4 / 2)%nat with 2%nat. destruct (Nat.leb_spec i 2), (Nat.eqb_spec i 3); lia. }
        rewrite J. rewrite nth_map_seq by (destruct (i =? 3)%nat; lia). f_equal. rewrite Nat.add_0_l.
        destruct rv, (Nat.eqb_spec i 3) as [->|]; cbn [negb Nat.eqb]; lia. }
      fold h in E. rewrite E. unfold layer_cols.
      rewrite (cols_fun_ext 4 h (bf_fun bf4_contig) radix4_pairp _ (tw4 h))
        by (intros; unfold h; now apply (layer_tw_real cst b bp)).
      apply (radix4_real h z Hh cst dht_spec ltac:(auto) Lz).
  Qed.

  Lemma fix_algo_real m x : length x = (b * 4 ^ m)%nat -> fix_algo b m fb x = dht_spec x.
  Proof.
    intros L. unfold fix_algo. rewrite fix_real by auto. f_equal. unfold in_order.
    cbn [nzero RNum]. apply (map_nth_id x _ L).
  Qed.
End Real.

(** ** the permutation of the original *)
Lemma r4_src_inj b l : 0 < b -> forall rv i j, i < b * 4 ^ l -> j < b * 4 ^ l ->
  r4_src b l rv i = r4_src b l rv j -> i = j.
Proof.
  intros Hb. induction l as [|l IH]; intros rv i j Hi Hj E; cbn [r4_src] in E.
  - simpl in *. destruct rv; lia.
  - rewrite Nat.pow_succ_r' in *. set (h := b * 4 ^ l) in *.
    pose proof (Nat.mod_upper_bound i 4 ltac:(lia)). pose proof (Nat.div_mod i 4 ltac:(lia)).
    pose proof (Nat.mod_upper_bound j 4 ltac:(lia)). pose proof (Nat.div_mod j 4 ltac:(lia)).
    assert (Em : i mod 4 = j mod 4).
    { match type of E with 4 * ?p + _ = 4 * ?q + _ => set (a := p) in E; set (c := q) in E end. lia. }
    rewrite Em in E. assert (i / 4 < h) by lia. assert (j / 4 < h) by lia.
    assert (E' : (if j mod 4 =? 3 then h - 1 - i / 4 else i / 4) = (if j mod 4 =? 3 then h - 1 - j / 4 else j / 4)).
    { apply (IH (if rv then negb (j mod 4 =? 0) else j mod 4 =? 3)).
      - destruct (j mod 4 =? 3); lia.
      - destruct (j mod 4 =? 3); lia.
      - lia. }
    destruct (j mod 4 =? 3); lia.
Qed.

Lemma r4_index_lt k j : j < 2 ^ k -> r4_index k j < 2 ^ k.
Proof. rewrite (r4_len k). apply r4_src_lt, r4_pos. Qed.
Lemma r4_index_inj k i j : i < 2 ^ k -> j < 2 ^ k -> r4_index k i = r4_index k j -> i = j.
Proof. rewrite (r4_len k). apply r4_src_inj, r4_pos. Qed.

Lemma r4_index_onto k : exists q, forall j, j < 2 ^ k -> q j < 2 ^ k /\ q (r4_index k j) = j /\ r4_index k (q j) = j.
Proof.
  assert (S : bSurjective (2 ^ k) (r4_index k)).
  { apply bInjective_bSurjective; [intros x; apply r4_index_lt|intros i j; apply r4_index_inj]. }
  assert (D : forall j, j < 2 ^ k -> exists i, find (fun i => r4_index k i =? j) (seq 0 (2 ^ k)) = Some i
                                          /\ i < 2 ^ k /\ r4_index k i = j).
  { intros j Hj. destruct (S j Hj) as (i & Hi & Ei).
    destruct (find (fun i => r4_index k i =? j) (seq 0 (2 ^ k))) as [u|] eqn:F.
    - apply find_some in F as (F1 & F2). apply in_seq in F1. apply Nat.eqb_eq in F2. exists u. repeat split; auto. lia.
    - pose proof (find_none _ _ F i) as N. cbv beta in N. rewrite Ei, Nat.eqb_refl in N.
      discriminate N. apply in_seq. lia. }
  exists (fun j => match find (fun i => r4_index k i =? j) (seq 0 (2 ^ k)) with Some i => i | None => 0 end).
  intros j Hj. destruct (D j Hj) as (i & -> & Hi & Ei). split; auto. split; auto.
  destruct (D _ (r4_index_lt k j Hj)) as (i' & -> & Hi' & Ei'). now apply (r4_index_inj k).
Qed.

Lemma map_NoDup_on {A B : Type} (f : A -> B) l :
  (forall i j, In i l -> In j l -> f i = f j -> i = j) -> NoDup l -> NoDup (map f l).
Proof.
  intros I N. induction N as [|a l Ha N IH]; simpl; constructor.
  - rewrite in_map_iff. intros (j & E & Hj). apply I in E; simpl; auto. now subst.
  - apply IH. intros i j Hi Hj. apply I; simpl; auto.
Qed.

Lemma r4_permutation {A : Type} (d : A) k (x : list A) : length x = 2 ^ k ->
  Permutation x (map (fun j => nth (r4_index k j) x d) (seq 0 (2 ^ k))).
Proof.
  intros L. rewrite <- (map_map (r4_index k) (fun i => nth i x d)).
  assert (Ex : x = map (fun i => nth i x d) (seq 0 (2 ^ k))).
  { apply (nth_list_ext d); [now rewrite map_length, seq_length|]. intros i Hi. rewrite L in Hi.
    now rewrite nth_map_seq. }
  rewrite Ex at 1. apply Permutation_map. apply NoDup_Permutation.
  - apply seq_NoDup.
  - apply map_NoDup_on; [|apply seq_NoDup].
    intros i j Hi Hj E. apply in_seq in Hi, Hj. apply (r4_index_inj k); auto; lia.
  - intros i. destruct (r4_index_onto k) as (q & Q). rewrite in_map_iff, in_seq. split.
    + intros Hi. destruct (Q i ltac:(lia)) as (Q1 & _ & Q2). exists (q i). rewrite in_seq. split; auto. lia.
    + intros (j & <- & Hj). apply in_seq in Hj. pose proof (r4_index_lt k j ltac:(lia)). lia.
Qed.

(** ** the theorems *)
Section Statements.
  Local Open Scope R_scope.
  Lemma C73_repair_proof (c : R) k : exists d, @radix4_fixed R (RNum c) (2 ^ k) = Ok d /\ dht_len d = (2 ^ k)%nat /\
    transforms d dht_spec.
  Proof.
    destruct (@radix4_fixed_ok R (RNum c) k) as (d & E & O & L). exists d. split; auto. split; auto.
    apply transforms_ok. apply (dht_ok_ext _ _ _ O). intros x Hx.
    apply (fix_algo_real c (r4_base k) (r4_pos k)); [apply r4_basefun_real|]. now rewrite <- r4_len, <- L.
  Qed.

  Lemma C73_permutation_proof (c : R) k : exists d p, @radix4 R (RNum c) (2 ^ k) = Ok d /\
    (forall x : list R, length x = (2 ^ k)%nat -> Permutation x (p x)) /\
    transforms d (fun x => dht_spec (p x)).
  Proof.
    destruct (api_radix4_char c k) as (d & E & L & Tr).
    exists d, (fun x => map (fun j => nth (r4_index k j) x 0) (seq 0 (length x))). split; auto. split; auto.
    intros x Lx. rewrite Lx. now apply r4_permutation.
  Qed.

  Lemma C73_workaround_proof (c : R) k : exists d q, @radix4 R (RNum c) (2 ^ k) = Ok d /\
    (forall j, (j < 2 ^ k)%nat -> (q j < 2 ^ k)%nat) /\
    forall x : list R, length x = (2 ^ k)%nat ->
      @dht_process R (RNum c) d (map (fun j => nth (q j) x 0) (seq 0 (2 ^ k))) = Ok (dht_spec x).
  Proof.
    destruct (@Radix4Proof.radix4_ok R (RNum c) k) as (d & E & O & _ & L & _).
    assert (P : (2 ^ k <> 0)%nat) by (apply Nat.pow_nonzero; lia).
    destruct (r4_index_onto k) as (q & Q). exists d, q. split; auto. split; [intros j Hj; apply Q, Hj|].
    intros x Lx. set (y := map _ _). assert (Ly : length y = (2 ^ k)%nat) by (unfold y; now rewrite map_length, seq_length).
    rewrite (RadersContract.dht_process_ok _ _ _ O) by lia. f_equal.
    rewrite (radix4_len_real c) by auto. f_equal. rewrite Ly.
    rewrite <- (map_nth_id x _ Lx). apply map_ext_in. intros j Hj. apply in_seq in Hj.
    destruct (Q j ltac:(lia)) as (_ & Q2 & _). pose proof (r4_index_lt k j ltac:(lia)).
    unfold y. rewrite nth_map_seq by auto. rewrite Nat.add_0_l, Q2. reflexivity.
  Qed.
End Statements.

Section More.
  Local Open Scope R_scope.
  Lemma rsum_lsum (x : list R) : rsum (length x) (fun j => nth j x 0) = fold_right Rplus 0 x.
  Proof.
    induction x as [|a x IH]; [reflexivity|]. cbn [length]. rewrite rsum_S_l. cbn [nth fold_right]. now rewrite IH.
  Qed.
  Lemma lsum_permutation (x y : list R) : Permutation x y -> fold_right Rplus 0 x = fold_right Rplus 0 y.
  Proof. induction 1; simpl; lra. Qed.
  Lemma rsum_permutation (x y : list R) (f : R -> R) : f 0 = 0 -> Permutation x y ->
    rsum (length x) (fun j => f (nth j x 0)) = rsum (length y) (fun j => f (nth j y 0)).
  Proof.
    intros F0 P. pose proof (Permutation_map f P) as P'.
    apply lsum_permutation in P'. rewrite <- !rsum_lsum, !map_length in P'.
    rewrite (rsum_ext (length x) _ (fun j => nth j (map f x) 0)).
    - rewrite P'. apply rsum_ext. intros. rewrite <- F0 at 1. now rewrite map_nth.
    - intros. rewrite <- F0 at 2. now rewrite map_nth.
  Qed.

  Lemma C73_keeps_proof (c : R) k : exists d, @radix4 R (RNum c) (2 ^ k) = Ok d /\
    forall x : list R, length x = (2 ^ k)%nat -> exists X, @dht_process R (RNum c) d x = Ok X /\
      nth 0 X 0 = rsum (2 ^ k) (fun j => nth j x 0) /\
      rsum (2 ^ k) (fun j => nth j X 0 * nth j X 0) = INR (2 ^ k) * rsum (2 ^ k) (fun j => nth j x 0 * nth j x 0).
  Proof.
    destruct (@Radix4Proof.radix4_ok R (RNum c) k) as (d & E & O & _ & L & _).
    assert (P : (2 ^ k <> 0)%nat) by (apply Nat.pow_nonzero; lia).
    exists d. split; auto. intros x Lx. exists (@radix4_len_fun R (RNum c) k x).
    split; [apply (RadersContract.dht_process_ok _ _ _ O); lia|].
    rewrite (radix4_len_real c) by auto. rewrite Lx. set (y := map _ _).
    assert (Py : Permutation x y) by now apply r4_permutation.
    assert (Ly : length y = (2 ^ k)%nat) by (unfold y; now rewrite map_length, seq_length).
    pose proof (rsum_permutation x y (fun v => v) eq_refl Py) as S1.
    pose proof (rsum_permutation x y (fun v => v * v) ltac:(lra) Py) as S2.
    cbv beta in S1, S2. rewrite Lx, Ly in S1, S2. split.
    - rewrite S1. rewrite <- Ly. apply dht_spec_sum. intros N. rewrite N in Ly. simpl in Ly. lia.
    - rewrite S2. rewrite <- Ly. apply dht_spec_parseval.
  Qed.

  Lemma C73_right_proof (c : R) k : exists d, @radix4 R (RNum c) (2 ^ k) = Ok d /\
    forall x : list R, length x = (2 ^ k)%nat ->
      (@dht_process R (RNum c) d x = Ok (dht_spec x) <->
       forall j, (j < 2 ^ k)%nat -> nth (r4_index k j) x 0 = nth j x 0).
  Proof.
    destruct (@Radix4Proof.radix4_ok R (RNum c) k) as (d & E & O & _ & L & _).
    assert (P : (2 ^ k <> 0)%nat) by (apply Nat.pow_nonzero; lia).
    exists d. split; auto. intros x Lx. rewrite (RadersContract.dht_process_ok _ _ _ O) by lia.
    rewrite <- (radix4_right_iff c k x Lx). split; [now intros [= ->]|now intros ->].
  Qed.

  Lemma C73_case_proof : exists d d' x y,
    @radix4 R (RNum rh) (2 ^ 7) = Ok d /\ @radix4_fixed R (RNum rh) (2 ^ 7) = Ok d' /\ length x = (2 ^ 7)%nat /\
    @dht_process R (RNum rh) d' x = Ok (dht_spec x) /\ @dht_process R (RNum rh) d x = Ok y /\ y <> dht_spec x.
  Proof.
    destruct (api_radix4_wrong rh 7 ltac:(lia)) as (d & x & y & E & L & P & N).
    destruct (@radix4_fixed_ok R (RNum rh) 7) as (d' & E' & O & L').
    exists d, d', x, y. repeat (split; [assumption|]). split; [|now split].
    rewrite (RadersContract.dht_process_ok _ _ _ O).
    - f_equal. apply (fix_algo_real rh (r4_base 7) (r4_pos 7)); [apply r4_basefun_real|]. now rewrite <- r4_len.
    - rewrite L'. apply Nat.neq_0_lt_0, Nat.pow_nonzero. lia.
    - now rewrite L'.
  Qed.
End More.
