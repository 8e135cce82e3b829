(** * What Radix4 computes over exact reals: the DHT of a reordered input *)
From Verif Require Import Lemmas Contract ButterfliesProof NxnProof NxnInst Radix4Proof RealDHT DHTTheory MixedReal
  ButterfliesReal NxnReal.
From Coq Require Import Reals Lra Lia List Arith.
Import ListNotations.

(** the input position that ends up at position [j] of the transformed vector, [l] layers above a
    base of length [b] *)
Fixpoint r4_src (b l : nat) (reversed : bool) (j : nat) : nat :=
  match l with
  | 0 => if reversed then b - 1 - j else j
  | S l' =>
    let h := b * 4 ^ l' in
    let i := j mod 4 in
    4 * r4_src b l' (if reversed then negb (i =? 0) else i =? 3) (if i =? 3 then h - 1 - j / 4 else j / 4) + i
  end.

Section FlatChunks.
  Context {T : Type}.
  Lemma slice_flat_map (g : nat -> list T) k h r (d : T) :
    (forall i, i < k -> length (g i) = h) -> r < k -> slice (flat_map g (seq 0 k)) (r * h) h = g r.
  Proof.
    intros Hg Hr.
    assert (Hl : length (flat_map g (seq 0 k)) = k * h).
    { rewrite (flat_map_length_const _ _ h), seq_length; auto. intros a Ha. apply in_seq in Ha. apply Hg. lia. }
    assert (r * h + h <= k * h) by nia.
    assert (E : length (slice (flat_map g (seq 0 k)) (r * h) h) = h) by (apply slice_length; lia).
    apply (nth_list_ext d); [rewrite E; symmetry; now apply Hg|].
    rewrite E. intros i Hi. rewrite nth_slice by auto.
    rewrite (nth_flat_map_const _ _ h 0 d); rewrite ?seq_length; auto; [now rewrite seq_nth|].
    intros a Ha. apply in_seq in Ha. apply Hg. lia.
  Qed.
  Lemma map_chunks_flat_map (f : list T -> list T) (g : nat -> list T) k h (d : T) :
    0 < h -> (forall i, i < k -> length (g i) = h) ->
    map_chunks h f (flat_map g (seq 0 k)) = flat_map (fun i => f (g i)) (seq 0 k).
  Proof.
    intros Hh Hg. unfold map_chunks.
    assert (Hl : length (flat_map g (seq 0 k)) = k * h).
    { rewrite (flat_map_length_const _ _ h), seq_length; auto. intros a Ha. apply in_seq in Ha. apply Hg. lia. }
    rewrite Hl, Nat.div_mul by lia. apply flat_map_ext_in. intros a Ha. apply in_seq in Ha.
    rewrite (slice_flat_map g k h a d) by (auto; lia). reflexivity.
  Qed.
End FlatChunks.

Lemma r4_src_lt b l : 0 < b -> forall rv j, j < b * 4 ^ l -> r4_src b l rv j < b * 4 ^ l.
Proof.
  intros Hb. induction l as [|l IH]; intros rv j Hj; cbn [r4_src].
  - simpl in *. destruct rv; lia.
  - rewrite Nat.pow_succ_r' in *. set (h := b * 4 ^ l) in *.
    pose proof (Nat.mod_upper_bound j 4 ltac:(lia)). pose proof (Nat.div_mod j 4 ltac:(lia)).
    assert (j / 4 < h) by lia.
    assert (S : forall rv', r4_src b l rv' (if j mod 4 =? 3 then h - 1 - j / 4 else j / 4) < h).
    { intros. apply IH. destruct (j mod 4 =? 3); lia. }
    specialize (S (if rv then negb (j mod 4 =? 0) else j mod 4 =? 3)).
    set (q := r4_src b l _ _) in *. lia.
Qed.

(** with no or one layer nothing is reordered *)
Lemma r4_src_0 b j : r4_src b 0 false j = j.
Proof. reflexivity. Qed.
Lemma r4_src_1 b j : j < b * 4 -> r4_src b 1 false j = j.
Proof.
  intros Hj. cbn [r4_src]. rewrite Nat.mul_1_r.
  pose proof (Nat.mod_upper_bound j 4 ltac:(lia)). pose proof (Nat.div_mod j 4 ltac:(lia)).
  destruct (Nat.eqb_spec (j mod 4) 3); lia.
Qed.
(** from two layers on, the last position receives element 3 *)
Lemma r4_src_start b l : r4_src b l false 0 = 0.
Proof. induction l; auto. cbn [r4_src]. change (0 mod 4) with 0. change (0 / 4) with 0. simpl. now rewrite IHl. Qed.
Lemma r4_src_last b l : 0 < b -> r4_src b (S (S l)) false (b * 4 ^ S (S l) - 1) = 3.
Proof.
  intros Hb. cbn [r4_src]. set (h := b * 4 ^ S l).
  assert (Hh : 0 < h) by (unfold h; pose proof (pow4_pos (S l)); nia).
  assert (E : b * 4 ^ S (S l) - 1 = 3 + (h - 1) * 4) by (unfold h in *; rewrite (Nat.pow_succ_r' 4 (S l)); lia).
  rewrite E. rewrite Nat.mod_add, Nat.div_add by lia. change (3 mod 4) with 3. change (3 / 4) with 0. cbn [Nat.eqb Nat.add].
  replace (h - 1 - (h - 1)) with 0 by lia. change (0 mod 4) with 0. change (0 / 4) with 0. cbn [Nat.eqb negb].
  rewrite r4_src_start. reflexivity.
Qed.

(** ** for 32 and 64 elements Radix4 is MixedRadix4xn on a butterfly, operation by operation *)
Section OneLayer.
  Context {T : Type} {NT : Num T}.
  Lemma prep_one b (x : list T) : prep_fun b 1 false (fun j => nth j x nzero) = half_rev 4 b x.
  Proof.
    cbn [prep_fun]. unfold half_rev, tab. apply flat_map_ext_in. intros i Hi. apply map_ext. intros c.
    apply in_seq in Hi. change (4 / 2) with 2. f_equal.
    destruct i as [|[|[|[|i]]]]; cbn [Nat.eqb Nat.leb]; lia.
  Qed.
  Lemma layer_tw_one b c : layer_tw (T := T) (b * 4 ^ 1) (4 ^ 0) c = tw4 b c.
  Proof.
    unfold layer_tw, tw4. simpl (4 ^ 1). simpl (4 ^ 0). rewrite !Nat.mul_1_r, (Nat.mul_comm b 4), (Nat.mul_comm c 2), (Nat.mul_1_l c). reflexivity.
  Qed.
  Lemma radix4_one_layer b fb (x : list T) :
    radix4_algo b 1 fb x = radix4_cols b (map_chunks b fb (half_rev 4 b x)).
  Proof.
    unfold radix4_algo. rewrite prep_one. cbn [block_fun]. unfold layer_cols, radix4_cols.
    change (1 - 1 - 0) with 0. change (4 ^ 0) with 1 at 1 3. rewrite Nat.mul_1_r.
    apply cols_fun_ext. intros c _ _. apply layer_tw_one.
  Qed.
End OneLayer.

Local Open Scope R_scope.

Section Real.
  Context (cst : R).
  Local Hint Extern 0 (Num R) => exact (RNum cst) : typeclass_instances.
  Variable b : nat.
  Hypothesis bp : (0 < b)%nat.
  Variable fb : list R -> list R.
  Hypothesis fb_spec : forall y, length y = b -> fb y = dht_spec y.

  Definition permuted (l : nat) (rv : bool) (g : nat -> R) : list R :=
    map (fun j => g (r4_src b l rv j)) (seq 0 (b * 4 ^ l)).

  Lemma layer_tw_real m l c : (l < m)%nat ->
    layer_tw (T := R) (b * 4 ^ m) (4 ^ (m - 1 - l)) c = tw4 (b * 4 ^ l) c.
  Proof.
    intros Hl. unfold layer_tw, tw4. rewrite !dft_twiddle_val.
    assert (E : (b * 4 ^ m)%nat = (4 ^ (m - 1 - l) * (4 * (b * 4 ^ l)))%nat).
    { replace m with (m - 1 - l + (1 + l))%nat at 1 by lia. rewrite !Nat.pow_add_r. simpl (4 ^ 1)%nat. lia. }
    pose proof (pow4_pos (m - 1 - l)). pose proof (pow4_pos l).
    assert (A : forall k, ang (b * 4 ^ m) (c * k * 4 ^ (m - 1 - l)) = ang (4 * (b * 4 ^ l)) (k * c)).
    { intros k. rewrite E. replace (c * k * 4 ^ (m - 1 - l))%nat with (4 ^ (m - 1 - l) * (k * c))%nat by lia.
      apply ang_scale; nia. }
    now rewrite !A.
  Qed.

  Lemma block_real m : forall l rv g, (l <= m)%nat ->
    block_fun b m fb l (prep_fun b l rv g) = dht_spec (permuted l rv g).
  Proof.
    induction l as [|l IH]; intros rv g Hl.
    - cbn [block_fun prep_fun]. rewrite fb_spec by (now rewrite map_length, seq_length).
      unfold permuted. simpl (4 ^ 0)%nat. rewrite Nat.mul_1_r. reflexivity.
    - cbn [block_fun]. set (h := (b * 4 ^ l)%nat).
      assert (Hh : (0 < h)%nat) by (unfold h; pose proof (pow4_pos l); nia).
      set (z := permuted (S l) rv g).
      assert (Lz : length z = (4 * h)%nat).
      { unfold z, permuted. rewrite map_length, seq_length. unfold h. simpl (4 ^ S l)%nat. lia. }
      assert (E : map_chunks h (block_fun b m fb l) (prep_fun b (S l) rv g) = stored 4 h z cst dht_spec).
      { cbn [prep_fun]. rewrite (map_chunks_flat_map _ _ 4 h 0); auto.
        2:{ intros. apply prep_fun_length. }
        unfold stored, half_rev, tab. rewrite (map_chunks_flat_map _ _ 4 h 0); auto.
        2:{ intros. now rewrite map_length, seq_length. }
        apply flat_map_ext_in. intros i Hi. apply in_seq in Hi. rewrite IH by lia. f_equal.
        unfold permuted. fold h. apply map_ext_in. intros j Hj. apply in_seq in Hj. cbv beta.
        unfold z, permuted. cbn [nzero RNum].
        assert (B : forall j', (j' < h)%nat -> (j' * 4 + i < b * 4 ^ S l)%nat).
        { intros. unfold h in *. simpl (4 ^ S l)%nat. lia. }
        assert (J : ((if i <=? 4 / 2 then j else h - 1 - j) = if i =? 3 then h - 1 - j else j)%nat).
        { change (4 / 2)%nat with 2%nat. destruct (Nat.leb_spec i 2), (Nat.eqb_spec i 3); lia. }
        rewrite J.
        rewrite nth_map_seq by (apply B; destruct (i =? 3)%nat; lia). rewrite Nat.add_0_l.
        cbn [r4_src]. fold h.
        replace ((if i =? 3 then h - 1 - j else j) * 4 + i)%nat with (i + (if i =? 3 then h - 1 - j else j) * 4)%nat by lia.
        rewrite Nat.mod_add, Nat.div_add by lia. rewrite (Nat.mod_small i 4), (Nat.div_small i 4) by lia. rewrite Nat.add_0_l.
        f_equal. f_equal. f_equal. f_equal. destruct (i =? 3)%nat; lia. }
      fold h in E. rewrite E. unfold layer_cols.
      rewrite (cols_fun_ext 4 h (bf_fun bf4_contig) radix4_pairp _ (tw4 h)) by (intros; now apply layer_tw_real).
      apply (radix4_real h z Hh cst dht_spec ltac:(auto) Lz).
  Qed.

  Lemma radix4_algo_real m x : length x = (b * 4 ^ m)%nat ->
    radix4_algo b m fb x = dht_spec (map (fun j => nth (r4_src b m false j) x 0) (seq 0 (length x))).
  Proof. intros L. unfold radix4_algo. rewrite block_real by auto. now rewrite L. Qed.
End Real.

(** ** Radix4 of length 2^k *)
Section Len.
  Context (cst : R).
  Local Hint Extern 0 (Num R) => exact (RNum cst) : typeclass_instances.

  Lemma r4_base_pos k : (0 < r4_base k)%nat.
  Proof. unfold r4_base. destruct k as [|[|[|k]]]; try lia. destruct (S (S (S k)) mod 2 =? 1)%nat; lia. Qed.

  Lemma bf1_real (x : list R) : length x = 1%nat -> x = dht_spec x.
  Proof.
    intros L. destruct x as [|a [|]]; try discriminate. unfold dht_spec, dht_at. simpl.
    rewrite ang_0. unfold cas. rewrite cos_0, sin_0. f_equal. lra.
  Qed.

  Lemma r4_basefun_real k y : length y = r4_base k -> r4_basefun k y = dht_spec y.
  Proof.
    unfold r4_base, r4_basefun. destruct k as [|[|[|k]]]; [apply bf1_real|apply bf2_real|apply bf4_real|].
    destruct (S (S (S k)) mod 2 =? 1)%nat; [apply bf8_real|apply bf16_real].
  Qed.

  Definition r4_index (k j : nat) : nat := r4_src (r4_base k) (r4_layers k) false j.

  Lemma radix4_len_real k x : length x = (2 ^ k)%nat ->
    radix4_len_fun k x = dht_spec (map (fun j => nth (r4_index k j) x 0) (seq 0 (length x))).
  Proof.
    intros L. unfold radix4_len_fun. apply (radix4_algo_real cst (r4_base k) (r4_base_pos k)).
    - apply r4_basefun_real.
    - now rewrite L, r4_len.
  Qed.

  Lemma r4_layers_small k : (k <= 6)%nat -> (r4_layers k <= 1)%nat.
  Proof. intros. do 7 (destruct k as [|k]; [vm_compute; lia|]). lia. Qed.
  Lemma r4_layers_large k : (7 <= k)%nat -> (2 <= r4_layers k)%nat.
  Proof.
    intros. unfold r4_layers. destruct k as [|[|[|k]]]; [lia|lia|lia|].
    set (K := S (S (S k))) in *. clearbody K. pose proof (Nat.div_mod (K - 3) 2 ltac:(lia)). pose proof (Nat.div_mod (K - 4) 2 ltac:(lia)).
    pose proof (Nat.mod_upper_bound (K - 3) 2 ltac:(lia)). pose proof (Nat.mod_upper_bound (K - 4) 2 ltac:(lia)).
    pose proof (Nat.div_mod K 2 ltac:(lia)). destruct (Nat.eqb_spec (K mod 2) 1); [lia|].
    pose proof (Nat.mod_upper_bound K 2 ltac:(lia)). lia.
  Qed.

  Lemma map_nth_id (x : list R) n : length x = n -> map (fun j => nth j x 0) (seq 0 n) = x.
  Proof.
    intros L. apply (nth_list_ext 0); [now rewrite map_length, seq_length|].
    rewrite map_length, seq_length. intros i Hi. now rewrite nth_map_seq.
  Qed.

  (** correct up to 64 *)
  Lemma radix4_small_real k x : (k <= 6)%nat -> length x = (2 ^ k)%nat -> radix4_len_fun k x = dht_spec x.
  Proof.
    intros Hk L. rewrite radix4_len_real by auto. f_equal.
    rewrite <- (map_nth_id x _ L) at 2. rewrite L. apply map_ext_in. intros j Hj. apply in_seq in Hj. f_equal.
    unfold r4_index. pose proof (r4_layers_small k Hk). pose proof (r4_len k) as E.
    destruct (r4_layers k) as [|[|]] eqn:El; [reflexivity| |lia]. apply r4_src_1. rewrite E in Hj. simpl (4 ^ 1)%nat in Hj. lia.
  Qed.

  Lemma dht_spec_inj (x y : list R) : length x = length y -> x <> [] -> dht_spec x = dht_spec y -> x = y.
  Proof.
    intros L N E. assert (E2 : dht_spec (dht_spec x) = dht_spec (dht_spec y)) by now rewrite E.
    rewrite !dht_spec_involution, <- L in E2.
    assert (0 < INR (length x)) by (apply lt_0_INR; destruct x; [easy|simpl; lia]).
    apply (nth_list_ext 0); auto. intros i Hi.
    assert (E3 : nth i (map (fun v => INR (length x) * v) x) (INR (length x) * 0) = nth i (map (fun v => INR (length x) * v) y) (INR (length x) * 0))
      by (now rewrite E2).
    rewrite !(map_nth (fun v => INR (length x) * v)) in E3. apply Rmult_eq_reg_l in E3; lra.
  Qed.

  (** exact characterisation of the inputs on which it is right *)
  Lemma radix4_right_iff k x : length x = (2 ^ k)%nat ->
    (radix4_len_fun k x = dht_spec x <-> forall j, (j < 2 ^ k)%nat -> nth (r4_index k j) x 0 = nth j x 0).
  Proof.
    intros L. rewrite radix4_len_real by auto. split.
    - intros E. apply dht_spec_inj in E.
      + intros j Hj. rewrite <- E at 2. rewrite L. now rewrite nth_map_seq.
      + now rewrite map_length, seq_length.
      + intros Z. apply (f_equal (@length R)) in Z. rewrite map_length, seq_length, L in Z.
        assert (2 ^ k <> 0)%nat by (apply Nat.pow_nonzero; lia). simpl in Z. lia.
    - intros E. f_equal. rewrite <- (map_nth_id x _ L) at 2. rewrite L. apply map_ext_in. intros j Hj.
      apply in_seq in Hj. apply E. lia.
  Qed.

  (** wrong from 128 on: the witness is the unit vector at position 3 *)
  Definition unit3 (n : nat) : list R := map (fun j => if (j =? 3)%nat then 1 else 0) (seq 0 n).
  Lemma radix4_large_wrong k : (7 <= k)%nat -> radix4_len_fun k (unit3 (2 ^ k)) <> dht_spec (unit3 (2 ^ k)).
  Proof.
    intros Hk E. assert (L : length (unit3 (2 ^ k)) = (2 ^ k)%nat) by (unfold unit3; now rewrite map_length, seq_length).
    assert (P : (2 ^ 7 <= 2 ^ k)%nat) by (apply Nat.pow_le_mono_r; lia). change (2 ^ 7)%nat with 128%nat in P.
    pose proof (proj1 (radix4_right_iff k _ L) E) as E1. clear E. rename E1 into E. specialize (E (2 ^ k - 1)%nat ltac:(lia)).
    unfold r4_index in E. pose proof (r4_layers_large k Hk) as Hl.
    destruct (r4_layers k) as [|[|l]] eqn:El; [lia|lia|].
    assert (Ek : (2 ^ k = r4_base k * 4 ^ S (S l))%nat) by (rewrite <- El; apply r4_len).
    rewrite Ek, r4_src_last, <- Ek in E by apply r4_base_pos. unfold unit3 in E.
    rewrite !nth_map_seq in E by lia. simpl (0 + 3 =? 3)%nat in E. destruct (Nat.eqb_spec (0 + (2 ^ k - 1)) 3); [lia|]. lra.
  Qed.
End Len.
