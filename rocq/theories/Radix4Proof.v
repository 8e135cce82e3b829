(** * Radix4 meets the contract (for the function it really computes), for every number type *)
From Verif Require Export NxnInst Radix4.

Lemma is_power_of_two_spec n : is_power_of_two n = true <-> exists k, n = 2 ^ k.
Proof.
  unfold is_power_of_two. split.
  - intros E. apply andb_true_iff in E as [_ E]. apply Nat.eqb_eq in E. now exists (Nat.log2 n).
  - intros (k & ->). rewrite Nat.log2_pow2 by lia. rewrite Nat.eqb_refl, andb_true_r.
    assert (2 ^ k <> 0) by (apply Nat.pow_nonzero; lia). now apply negb_true_iff, Nat.eqb_neq.
Qed.

Lemma trailing_zeros_go_pow2 k : forall fuel, k < fuel -> trailing_zeros_go fuel (2 ^ k) = k.
Proof.
  induction k as [|k IH]; intros fuel Hf; (destruct fuel as [|fuel]; [lia|]); cbn [trailing_zeros_go].
  - reflexivity.
  - rewrite Nat.pow_succ_r', Nat.mul_comm, Nat.mod_mul, Nat.div_mul by lia. simpl (0 =? 0). cbn iota.
    f_equal. apply IH. lia.
Qed.

Lemma trailing_zeros_pow2 k : trailing_zeros (2 ^ k) = k.
Proof. apply trailing_zeros_go_pow2, Nat.pow_gt_lin_r. lia. Qed.

Section NestedChunks.
  Context {T : Type} {NT : Num T}.

  Lemma slice_slice (l : list T) a n i m :
    i + m <= n -> slice (slice l a n) i m = slice l (a + i) m.
  Proof.
    intros. unfold slice. rewrite skipn_firstn_comm, firstn_firstn, Nat.min_l by lia.
    now rewrite skipn_add, (Nat.add_comm i a).
  Qed.

  Lemma slice_nth_ext (l1 l2 : list T) a1 a2 n :
    a1 + n <= length l1 -> a2 + n <= length l2 ->
    (forall i, i < n -> nth (a1 + i) l1 nzero = nth (a2 + i) l2 nzero) ->
    slice l1 a1 n = slice l2 a2 n.
  Proof.
    intros H1 H2 E. apply (nth_list_ext nzero); rewrite !slice_length; auto.
    intros i Hi. rewrite !nth_slice by auto. now apply E.
  Qed.

  (** processing blocks of [n], then super-blocks of [k*n] *)
  Lemma map_chunks_nested (f g : list T -> list T) k n m (l : list T) :
    0 < k -> 0 < n -> length l = m * (k * n) ->
    (forall c, length c = n -> length (f c) = n) ->
    (forall c, length c = k * n -> length (g c) = k * n) ->
    map_chunks (k * n) g (map_chunks n f l) = map_chunks (k * n) (fun c => g (map_chunks n f c)) l.
  Proof.
    intros Hk Hn Hl Hf Hg.
    assert (Hl' : length l = m * k * n) by lia.
    assert (Hkn : 0 < k * n) by nia.
    assert (L1 : length (map_chunks n f l) = m * (k * n)) by (rewrite (map_chunks_length n (m * k)); auto; lia).
    unfold map_chunks at 1 3. rewrite L1, Hl, Nat.div_mul by lia.
    apply flat_map_ext_in. intros r Hr. apply in_seq in Hr. f_equal.
    assert (Ls : length (slice l (r * (k * n)) (k * n)) = k * n) by (apply slice_length; nia).
    apply (mat_ext nzero k n).
    - apply slice_length. nia.
    - now apply map_chunks_length.
    - intros a c Ha Hc. pose proof (rc_bound k n a c Ha Hc). rewrite nth_slice by auto.
      replace (r * (k * n) + (a * n + c)) with ((r * k + a) * n + c) by lia.
      rewrite (nth_map_chunks n (m * k)), (nth_map_chunks n k) by (auto; nia).
      rewrite slice_slice by nia. f_equal. f_equal. f_equal. lia.
  Qed.
End NestedChunks.

Section Radix4Pure.
  Context {T : Type} {NT : Num T}.
  Variable b : nat.  (* base length *)

  (** the reordering: [size = b * 4^l]; [g j] is the j-th element of the (strided) input *)
  Fixpoint prep_fun (l : nat) (reversed : bool) (g : nat -> T) : list T :=
    match l with
    | 0 => map (fun i => g (if reversed then b - 1 - i else i)) (seq 0 b)
    | S l' => flat_map (fun i => prep_fun l' (if reversed then negb (i =? 0) else i =? 3)
                                          (fun j => g (4 * j + i))) (seq 0 4)
    end.

  Lemma prep_fun_length l : forall reversed g, length (prep_fun l reversed g) = b * 4 ^ l.
  Proof.
    induction l as [|l IH]; intros; cbn [prep_fun].
    - rewrite map_length, seq_length. simpl. lia.
    - rewrite (flat_map_length_const _ _ (b * 4 ^ l)), seq_length by auto. simpl (4 ^ S l). lia.
  Qed.

  Lemma prep_fun_ext l : forall r (g g' : nat -> T),
    (forall j, g j = g' j) -> prep_fun l r g = prep_fun l r g'.
  Proof.
    induction l as [|l IH]; intros r g g' E; cbn [prep_fun].
    - apply map_ext. intros. apply E.
    - apply flat_map_ext_in. intros. apply IH. intros. apply E.
  Qed.

  (** one cross layer: rows of [h], twiddle factors with the given stride *)
  Definition layer_tw (len stride c : nat) : list (cplx T) :=
    [compute_dft_twiddle_inverse (c * 1 * stride) len; compute_dft_twiddle_inverse (c * 2 * stride) len].
  Definition layer_cols (len h stride : nat) : list T -> list T :=
    cols_fun 4 h (bf_fun bf4_contig) radix4_pairp (layer_tw len stride).
  (** the transform of one block of [b * 4^l] reordered elements, inside a transform of [b * 4^m] *)
  Fixpoint block_fun (m : nat) (fb : list T -> list T) (l : nat) (y : list T) : list T :=
    match l with
    | 0 => fb y
    | S l' => layer_cols (b * 4 ^ m) (b * 4 ^ l') (4 ^ (m - 1 - l')) (map_chunks (b * 4 ^ l') (block_fun m fb l') y)
    end.
  Definition radix4_algo (m : nat) (fb : list T -> list T) (x : list T) : list T :=
    block_fun m fb m (prep_fun m false (fun j => nth j x nzero)).

  Lemma block_fun_length m fb l y :
    (forall y, length y = b -> length (fb y) = b) -> length y = b * 4 ^ l ->
    length (block_fun m fb l y) = b * 4 ^ l.
  Proof.
    intros Hb Hy. destruct l; cbn [block_fun].
    - rewrite Hb; simpl in *; lia.
    - unfold layer_cols. rewrite cols_fun_length. simpl (4 ^ S l). lia.
  Qed.

  (** *** the twiddle table *)
  Definition layer_list (len stride : nat) : list (cplx T) :=
    flat_map (layer_tw len stride) (seq 1 (len / (stride * 4) - 1)).
  Fixpoint tw_tail (len j : nat) : list (cplx T) :=
    match j with 0 => [] | S j' => layer_list len (4 ^ j') ++ tw_tail len j' end.

  Lemma pow4_pos j : 0 < 4 ^ j.
  Proof. assert (4 ^ j <> 0) by (apply Nat.pow_nonzero; lia). lia. Qed.

  Lemma radix4_twiddles_go_ok len : forall j fuel, j < fuel -> forall s, s = 4 ^ j / 4 ->
    radix4_twiddles_go fuel len s = Ok (tw_tail len j).
  Proof.
    induction j as [|j IH]; intros fuel Hf s ->; (destruct fuel as [|fuel]; [lia|]); cbn [radix4_twiddles_go].
    - reflexivity.
    - rewrite Nat.pow_succ_r', Nat.mul_comm, Nat.div_mul by lia. pose proof (pow4_pos j).
      destruct (Nat.ltb_spec 0 (4 ^ j)); [|lia]. rewrite (IH fuel) by lia. reflexivity.
  Qed.

  Hypothesis b_pos : 0 < b.

  Lemma radix4_twiddles_ok m : radix4_twiddles (b * 4 ^ m) b = Ok (tw_tail (b * 4 ^ m) m).
  Proof.
    unfold radix4_twiddles. apply radix4_twiddles_go_ok.
    - assert (m < 4 ^ m) by (apply Nat.pow_gt_lin_r; lia). nia.
    - rewrite <- Nat.div_div by lia. f_equal. rewrite Nat.mul_comm, Nat.div_mul; lia.
  Qed.

  (** *** the reordering *)
  Lemma prepare_ok : forall l fuel reversed (input output : list T) stride,
    l < fuel -> 0 < stride -> b * 4 ^ l <= length output ->
    (b * 4 ^ l - 1) * stride < length input ->
    prepare_radix4 fuel reversed (b * 4 ^ l) b input output stride =
    Ok (prep_fun l reversed (fun j => nth (j * stride) input nzero) ++ skipn (b * 4 ^ l) output).
  Proof.
    induction l as [|l IH]; intros fuel reversed input output stride Hf Hs Lo Li;
      (destruct fuel as [|fuel]; [lia|]); cbn [prepare_radix4].
    - simpl (4 ^ 0) in *. rewrite Nat.mul_1_r in *. rewrite Nat.eqb_refl.
      match goal with |- for_range ?lo ?hi ?body ?s = _ =>
        destruct (for_range_inv (fun i out => length out = length output /\
          (forall p, p < i -> nth p out nzero = nth p (prep_fun 0 reversed (fun j => nth (j * stride) input nzero)) nzero) /\
          (forall p, i <= p -> nth p out nzero = nth p output nzero)) lo hi body s) as (o' & E & L & R1 & R2) end.
      + lia.
      + repeat split; auto. lia.
      + intros i out Hi (L & R1 & R2).
        assert (Ej : (if reversed then s <- usub b i ;; usub s 1 else Ok i)
                     = Ok (if reversed then b - 1 - i else i)).
        { destruct reversed; auto. unfold usub. destruct (Nat.leb_spec i b); [|lia]. cbn [bind].
          destruct (Nat.leb_spec 1 (b - i)); [|lia]. f_equal. lia. }
        rewrite Ej. cbn [bind].
        rewrite (uidx_ok nzero) by (destruct reversed; nia). cbn [bind].
        rewrite uset_ok by lia. eexists. split; [reflexivity|]. rewrite upd_length. split; auto. split.
        * intros p Hp. destruct (Nat.eq_dec p i) as [->|].
          -- rewrite nth_upd_eq by lia. cbn [prep_fun]. now rewrite nth_map_seq by lia.
          -- rewrite nth_upd_neq by auto. apply R1. lia.
        * intros p Hp. rewrite nth_upd_neq by lia. apply R2. lia.
      + rewrite E. f_equal.
        pose proof (prep_fun_length 0 reversed (fun j => nth (j * stride) input nzero)) as LP.
        simpl (4 ^ 0) in LP. rewrite Nat.mul_1_r in LP.
        apply (nth_list_ext nzero).
        * rewrite app_length, LP, skipn_length. lia.
        * intros p Hp. destruct (Nat.lt_ge_cases p b).
          -- rewrite app_nth1 by lia. now apply R1.
          -- rewrite app_nth2 by lia. rewrite LP, nth_skipn. replace (b + (p - b)) with p by lia. now apply R2.
    - pose proof (pow4_pos l) as Hp4.
      assert (E4 : 4 ^ S l = 4 * 4 ^ l) by (simpl; lia).
      destruct (Nat.eqb_spec (b * 4 ^ S l) b) as [E|_]; [nia|].
      assert (Ed : b * 4 ^ S l / 4 = b * 4 ^ l).
      { rewrite E4. replace (b * (4 * 4 ^ l)) with (b * 4 ^ l * 4) by lia. now rewrite Nat.div_mul. }
      rewrite Ed. set (h := b * 4 ^ l) in *. assert (Hh : b * 4 ^ S l = 4 * h) by (unfold h; rewrite E4; lia).
      assert (Hhp : 0 < h) by (unfold h; nia).
      set (ch := fun i => prep_fun l (if reversed then negb (i =? 0) else i =? 3)
                            (fun j => nth ((4 * j + i) * stride) input nzero)).
      assert (Lch : forall i, length (ch i) = h) by (intros; apply prep_fun_length).
      match goal with |- for_range ?lo ?hi ?body ?s = _ =>
        destruct (for_range_inv (fun i out =>
          out = flat_map ch (seq 0 i) ++ skipn (i * h) output) lo hi body s) as (o' & E & R) end.
      + lia.
      + reflexivity.
      + intros i out Hi ->.
        assert (Lf : length (flat_map ch (seq 0 i)) = i * h).
        { rewrite (flat_map_length_const _ _ h), seq_length; auto. }
        rewrite split_at_ok by nia. cbn [bind]. unfold on_tail.
        rewrite split_at_app by auto. cbn [bind].
        rewrite IH; fold h; try lia.
        * cbn [bind]. eexists. split; [reflexivity|].
          change (1 + i) with (S i). rewrite seq_S, flat_map_app. cbn [flat_map]. rewrite app_nil_r.
          rewrite <- app_assoc. f_equal. f_equal.
          -- unfold ch. apply prep_fun_ext. intros j. rewrite nth_skipn. f_equal. lia.
          -- rewrite skipn_add. reflexivity.
        * rewrite skipn_length. nia.
        * rewrite skipn_length. nia.
      + rewrite E, R, Hh. reflexivity.
  Qed.

  (** *** one cross layer *)
  Lemma radix4_apply_tail_ok len h stride rest (data : list T) :
    0 < h -> len / (stride * 4) = h -> 4 * h <= length data ->
    (exists n, length rest = n * 2) ->
    radix4_apply h (layer_list len stride ++ rest) data =
    Ok (layer_cols len h stride (firstn (4 * h) data) ++ skipn (4 * h) data).
  Proof.
    intros Hh Eh Ld (n & Lr). unfold radix4_apply.
    assert (Ll : length (layer_list len stride) = (h - 1) * 2).
    { unfold layer_list. rewrite (flat_map_length_const _ _ 2), seq_length by auto. now rewrite Eh. }
    rewrite (chunks_exact_ok 2 (h - 1 + n)) by (rewrite ?app_length; lia). cbn [bind].
    set (chs := map _ _).
    assert (Lc : length chs = h - 1 + n) by (unfold chs; now rewrite map_length, seq_length).
    assert (Hc2 : forall a, In a chs -> 2 <= length a).
    { intros a Ha. unfold chs in Ha. apply in_map_iff in Ha as (i & <- & Hi). apply in_seq in Hi.
      rewrite slice_length; auto. rewrite app_length. lia. }
    assert (Hnth : forall c, 0 < c -> 2 * c <= h -> nth (c - 1) chs [] = layer_tw len stride c).
    { intros c Hc0 Hc. unfold chs. rewrite nth_map_seq by lia. simpl plus.
      apply (nth_list_ext (Cplx nzero nzero)).
      - rewrite slice_length; [reflexivity|]. rewrite app_length. lia.
      - rewrite slice_length by (rewrite app_length; lia). intros i Hi.
        rewrite nth_slice by auto. rewrite app_nth1 by lia. unfold layer_list.
        rewrite (nth_flat_map_const _ _ 2 0) by (rewrite ?seq_length; auto; lia).
        rewrite seq_nth by lia. replace (1 + (c - 1)) with c by lia. reflexivity. }
    assert (Hh2 : h / 2 <= h - 1).
    { assert (2 * (h / 2) <= h) by (apply Nat.mul_div_le; lia). destruct (Nat.eq_dec h 1) as [->|]; [reflexivity|].
      apply Nat.div_le_upper_bound; lia. }
    destruct (columns_apply_spec 4 h bf4_array (bf_fun bf4_contig) radix4_pair radix4_pairp
               (kernel_array 4 _ bf4_kernel) (fun tw => 2 <= length tw) radix4_pair_ok [] chs data)
      as (b' & E & L & R); auto; [lia|].
    rewrite E. f_equal.
    assert (Lfs : length (firstn (4 * h) data) = 4 * h) by (rewrite firstn_length; lia).
    apply (nth_list_ext nzero).
    - unfold layer_cols. rewrite app_length, cols_fun_length, skipn_length. lia.
    - intros p Hp. rewrite (Nat.div_mod p h) by lia. rewrite (Nat.mul_comm h).
      pose proof (Nat.mod_upper_bound p h ltac:(lia)) as Hm.
      set (r := p / h) in *. set (c := p mod h) in *. rewrite R by auto.
      unfold layer_cols. destruct (Nat.ltb_spec r 4).
      + rewrite app_nth1 by (rewrite cols_fun_length; apply rc_bound; auto).
        unfold cols_fun. rewrite nth_tab by auto. unfold cols_cell.
        assert (Ec : forall c, c < h -> col 4 h data c = col 4 h (firstn (4 * h) data) c).
        { intros c' Hc'. unfold col. apply map_ext_in. intros r' Hr'. apply in_seq in Hr'.
          rewrite nth_firstn; auto. apply rc_bound; lia. }
        destruct (Nat.eqb_spec c 0); [now rewrite Ec|].
        destruct (Nat.ltb_spec (2 * c) h); rewrite !Ec, Hnth by lia; reflexivity.
      + rewrite app_nth2; rewrite cols_fun_length; [|nia]. rewrite nth_skipn. f_equal. nia.
  Qed.

  Fixpoint cross_fun (m j l : nat) (out : list T) : list T :=
    match j with
    | 0 => out
    | S j' => cross_fun m j' (S l) (map_chunks (4 * (b * 4 ^ l)) (layer_cols (b * 4 ^ m) (b * 4 ^ l) (4 ^ j')) out)
    end.

  Lemma tw_tail_even len j : exists n, length (tw_tail len j) = n * 2.
  Proof.
    induction j as [|j (n & IH)]; simpl.
    - now exists 0.
    - rewrite app_length, IH. unfold layer_list. rewrite (flat_map_length_const _ _ 2), seq_length by auto.
      eexists. rewrite <- Nat.mul_add_distr_r. reflexivity.
  Qed.

  Lemma radix4_cross_ok m : forall j l fuel out,
    l + j = m -> j < fuel -> length out = b * 4 ^ m ->
    radix4_cross fuel (b * 4 ^ m) (4 * (b * 4 ^ l)) (tw_tail (b * 4 ^ m) j) out = Ok (cross_fun m j l out).
  Proof.
    induction j as [|j IH]; intros l fuel out Hlj Hf Lo; (destruct fuel as [|fuel]; [lia|]); cbn [radix4_cross cross_fun].
    - assert (l = m) by lia. subst l. pose proof (pow4_pos m).
      destruct (Nat.leb_spec (4 * (b * 4 ^ m)) (b * 4 ^ m)); [nia|reflexivity].
    - pose proof (pow4_pos l). pose proof (pow4_pos j).
      set (h := b * 4 ^ l). assert (Hh : 0 < h) by (unfold h; nia).
      set (nr := 4 ^ j) in *.
      assert (Elen : b * 4 ^ m = nr * (4 * h)).
      { unfold nr, h. rewrite <- Hlj, Nat.pow_add_r, Nat.pow_succ_r'. lia. }
      rewrite Elen in *.
      destruct (Nat.leb_spec (4 * h) (nr * (4 * h))); [|nia].
      rewrite Nat.div_mul by lia. replace (4 * h / 4) with h by (rewrite Nat.mul_comm, Nat.div_mul; lia).
      assert (Estr : nr * (4 * h) / (4 ^ j * 4) = h).
      { fold nr. replace (nr * (4 * h)) with (h * (nr * 4)) by lia. apply Nat.div_mul. lia. }
      assert (Hlc : forall c : list T, length c = 4 * h -> length (layer_cols (nr * (4 * h)) h (4 ^ j) c) = 4 * h).
      { intros. unfold layer_cols. apply cols_fun_length. }
      match goal with |- bind (for_range ?lo ?hi ?body ?s) _ = _ =>
        destruct (for_range_inv (fun i o =>
          o = flat_map (fun r => layer_cols (nr * (4 * h)) h (4 ^ j) (slice out (r * (4 * h)) (4 * h))) (seq 0 i)
              ++ skipn (i * (4 * h)) out) lo hi body s) as (o' & E & R) end.
      + lia.
      + reflexivity.
      + intros i o Hi ->.
        set (g := fun r => layer_cols (nr * (4 * h)) h (4 ^ j) (slice out (r * (4 * h)) (4 * h))).
        assert (Lf : length (flat_map g (seq 0 i)) = i * (4 * h)).
        { rewrite (flat_map_length_const _ _ (4 * h)), seq_length; auto.
          intros a Ha. apply in_seq in Ha. apply Hlc, slice_length. nia. }
        unfold on_tail. rewrite split_at_app by auto. cbn [bind tw_tail].
        rewrite radix4_apply_tail_ok; auto; [|rewrite skipn_length; nia|apply tw_tail_even].
        cbn [bind]. eexists. split; [reflexivity|].
        change (1 + i) with (S i). rewrite seq_S, flat_map_app. cbn [flat_map]. rewrite app_nil_r, <- app_assoc.
        f_equal. f_equal. rewrite skipn_add. reflexivity.
      + rewrite E. cbn [bind].
        replace (4 * h * 2 / 4) with (2 * h) by (replace (4 * h * 2) with (2 * h * 4) by lia; now rewrite Nat.div_mul).
        unfold usub. destruct (Nat.leb_spec 2 (2 * h)); [|lia]. cbn [bind tw_tail].
        rewrite split_at_app.
        2:{ unfold layer_list. rewrite (flat_map_length_const _ _ 2), seq_length by auto. rewrite Estr. lia. }
        cbn [bind].
        assert (Eo : o' = map_chunks (4 * h) (layer_cols (nr * (4 * h)) h (4 ^ j)) out).
        { rewrite R. rewrite <- Lo, skipn_all, app_nil_r. unfold map_chunks. rewrite Lo, Nat.div_mul by lia.
          reflexivity. }
        rewrite Eo. replace (4 * h * 4) with (4 * (b * 4 ^ S l)) by (unfold h; simpl (4 ^ S l); lia).
        rewrite IH; [reflexivity|lia|lia|].
        rewrite (map_chunks_length _ nr); auto; lia.
  Qed.

  Lemma cross_fun_block m fb : (forall y, length y = b -> length (fb y) = b) ->
    forall j l y, l + j = m -> length y = b * 4 ^ m ->
    cross_fun m j l (map_chunks (b * 4 ^ l) (block_fun m fb l) y) = block_fun m fb m y.
  Proof.
    intros Hfb. induction j as [|j IH]; intros l y Hlj Ly; cbn [cross_fun].
    - assert (l = m) by lia. subst l. apply map_chunks_one; auto. pose proof (pow4_pos m). nia.
    - pose proof (pow4_pos l). pose proof (pow4_pos j).
      rewrite (map_chunks_nested _ _ 4 (b * 4 ^ l) (4 ^ j)); try lia.
      + rewrite <- (IH (S l)) by (auto; lia).
        replace (4 * (b * 4 ^ l)) with (b * 4 ^ S l) by (simpl (4 ^ S l); lia).
        f_equal. apply (map_chunks_ext _ (4 ^ j)).
        * simpl (4 ^ S l). nia.
        * rewrite Ly, <- Hlj, Nat.pow_add_r, !Nat.pow_succ_r'. lia.
        * intros c Hc. cbn [block_fun]. replace (m - 1 - l) with j by lia. reflexivity.
      + rewrite Ly, <- Hlj, Nat.pow_add_r, Nat.pow_succ_r'. lia.
      + intros. now apply block_fun_length.
      + intros. unfold layer_cols. apply cols_fun_length.
  Qed.

  (** *** the Dht instance, given its base *)
  Lemma radix4_inst_ok m (d : Dht T) fb :
    dht_ok d fb -> dht_len d = b -> dht_inplace_scratch d = 0 ->
    let len := b * 4 ^ m in
    let inst := boilerplate_dht len len 0 (radix4_inplace len b d (tw_tail len m))
                                         (radix4_oop len b d (tw_tail len m)) in
    dht_ok inst (radix4_algo m fb) /\ dht_strict inst.
  Proof.
    intros Hd Eb Es len inst. unfold inst. pose proof (pow4_pos m) as Hp.
    assert (Hfb : forall y, length y = b -> length (fb y) = b) by (rewrite <- Eb; apply (ok_len _ _ Hd)).
    assert (Hlen : 0 < len) by (unfold len; nia).
    assert (Hoop : forall i out scr, length i = len -> length out = len ->
      radix4_oop len b d (tw_tail len m) i out scr = Ok (i, radix4_algo m fb i, scr)).
    { intros i out scr Li Lo. unfold radix4_oop.
      unfold len at 2. rewrite prepare_ok; fold len; try lia.
      2:{ assert (m < 4 ^ m) by (apply Nat.pow_gt_lin_r; lia). unfold len. nia. }
      cbn [bind]. rewrite <- Lo, skipn_all, app_nil_r.
      assert (Eg : prep_fun m false (fun j => nth (j * 1) i nzero) = prep_fun m false (fun j => nth j i nzero)).
      { apply prep_fun_ext. intros. f_equal. lia. }
      rewrite Eg. set (y := prep_fun m false _).
      assert (Ly : length y = b * 4 ^ m) by apply prep_fun_length.
      destruct (ok_inplace _ _ Hd ltac:(lia) (4 ^ m) y []) as (s' & E & _); [lia|rewrite Eb; lia|rewrite Es; simpl; lia|].
      rewrite E, Eb. cbn [bind].
      rewrite (Nat.mul_comm b 4). replace (4 * b) with (4 * (b * 4 ^ 0)) by (simpl; lia).
      rewrite Lo. unfold len at 1 2 3. rewrite (radix4_cross_ok m m 0).
      - cbn [bind]. f_equal. f_equal. f_equal.
        replace b with (b * 4 ^ 0) at 1 by (simpl; lia).
        change fb with (block_fun m fb 0). now apply cross_fun_block.
      - lia.
      - assert (m < 4 ^ m) by (apply Nat.pow_gt_lin_r; lia). nia.
      - rewrite (map_chunks_length _ (4 ^ m)); auto; lia. }
    apply boilerplate_dht_ok.
    - intros x Hx. apply block_fun_length; auto. apply prep_fun_length.
    - intros _ c scr Lc Ls. unfold radix4_inplace, copy_from_slice. rewrite Lc, Ls, Nat.eqb_refl. cbn [bind].
      rewrite Hoop by auto. cbn [bind]. eexists. split; [reflexivity|auto].
    - intros _ i out scr Li Lo Ls. rewrite Hoop by auto. eexists _, _. split; [reflexivity|auto].
  Qed.
End Radix4Pure.

Section Radix4Contract.
  Context {T : Type} {NT : Num T}.

  (** base length, base function and number of cross layers for len = 2^k *)
  Definition r4_base (k : nat) : nat :=
    match k with 0 => 1 | 1 => 2 | 2 => 4 | _ => if k mod 2 =? 1 then 8 else 16 end.
  Definition r4_basefun (k : nat) : list T -> list T :=
    match k with
    | 0 => fun x => x
    | 1 => bf_fun bf2_contig
    | 2 => bf_fun bf4_contig
    | _ => if k mod 2 =? 1 then bf_fun (bf8_contig bf8_new) else bf_fun (bf16_contig bf16_new)
    end.
  Definition r4_layers (k : nat) : nat :=
    match k with 0 | 1 | 2 => 0 | _ => if k mod 2 =? 1 then (k - 3) / 2 else (k - 4) / 2 end.

  Lemma r4_len k : 2 ^ k = r4_base k * 4 ^ r4_layers k.
  Proof.
    destruct k as [|[|[|k]]]; try reflexivity. unfold r4_base, r4_layers.
    pose proof (Nat.div_mod k 2 ltac:(lia)) as D. pose proof (Nat.mod_upper_bound k 2 ltac:(lia)) as M.
    assert (Hm : S (S (S k)) mod 2 = (k + 1) mod 2).
    { replace (S (S (S k))) with (k + 1 + 1 * 2) by lia. now rewrite Nat.mod_add by lia. }
    assert (P4 : forall j, 4 ^ j = 2 ^ (2 * j)) by (intros; now rewrite Nat.pow_mul_r).
    rewrite Hm, P4.
    destruct (Nat.eq_dec (k mod 2) 0) as [E|E].
    - assert (E' : (k + 1) mod 2 = 1) by (rewrite Nat.add_mod, E by lia; reflexivity).
      rewrite E'. simpl (1 =? 1). cbn iota.
      change 8 with (2 ^ 3). rewrite <- Nat.pow_add_r. f_equal.
      replace (S (S (S k)) - 3) with k by lia. lia.
    - assert (E1 : k mod 2 = 1) by lia.
      assert (E' : (k + 1) mod 2 = 0) by (rewrite Nat.add_mod, E1 by lia; reflexivity).
      rewrite E'. simpl (0 =? 1). cbn iota.
      change 16 with (2 ^ 4). rewrite <- Nat.pow_add_r. f_equal.
      replace (S (S (S k)) - 4) with (k - 1) by lia.
      replace (k - 1) with (k / 2 * 2) by lia. rewrite Nat.div_mul by lia. lia.
  Qed.

  Definition radix4_len_fun (k : nat) : list T -> list T :=
    radix4_algo (r4_base k) (r4_layers k) (r4_basefun k).

  Lemma r4_base_ok k : exists d,
    radix4_base (T := T) (2 ^ k) = (r4_base k, d) /\ dht_ok d (r4_basefun k) /\
    dht_len d = r4_base k /\ dht_inplace_scratch d = 0.
  Proof.
    unfold radix4_base. rewrite trailing_zeros_pow2.
    destruct k as [|[|[|k]]].
    - exists butterfly1. split; [reflexivity|]. split; [apply butterfly1_ok|auto].
    - exists butterfly2. split; [reflexivity|]. split; [apply butterfly_ok; auto using bf2_kernel|auto].
    - exists butterfly4. split; [reflexivity|]. split; [apply butterfly_ok; auto using bf4_kernel; lia|auto].
    - unfold r4_base, r4_basefun. destruct (S (S (S k)) mod 2 =? 1).
      + exists butterfly8. split; [reflexivity|]. split; [apply butterfly_ok; auto using bf8_kernel; lia|auto].
      + exists butterfly16. split; [reflexivity|]. split; [apply butterfly_ok; auto using bf16_kernel; lia|auto].
  Qed.

  Lemma radix4_ok k : exists d, radix4 (2 ^ k) = Ok d /\
    dht_ok d (radix4_len_fun k) /\ dht_strict d /\
    dht_len d = 2 ^ k /\ dht_inplace_scratch d = 2 ^ k /\ dht_oop_scratch d = 0.
  Proof.
    unfold radix4, rassert.
    assert (Ep : is_power_of_two (2 ^ k) = true) by (apply is_power_of_two_spec; eauto).
    rewrite Ep. cbn [bind].
    destruct (r4_base_ok k) as (d & Ed & Hd & Ld & Sd). rewrite Ed.
    assert (Hb : 0 < r4_base k).
    { unfold r4_base. destruct k as [|[|[|k]]]; try lia. destruct (S (S (S k)) mod 2 =? 1); lia. }
    assert (Et : radix4_twiddles (T := T) (2 ^ k) (r4_base k) = Ok (tw_tail (2 ^ k) (r4_layers k)))
      by (rewrite (r4_len k); now apply radix4_twiddles_ok).
    rewrite Et. cbn [bind].
    eexists. split; [reflexivity|].
    pose proof (radix4_inst_ok (r4_base k) Hb (r4_layers k) d _ Hd Ld Sd) as HI. cbv zeta in HI.
    rewrite <- (r4_len k) in HI. destruct HI as [HA HB].
    exact (conj HA (conj HB (conj eq_refl (conj eq_refl eq_refl)))).
  Qed.

  Lemma radix4_panics n : (forall k, n <> 2 ^ k) -> radix4 (T := T) n = Panic.
  Proof.
    intros N. unfold radix4, rassert. destruct (is_power_of_two n) eqn:E; [|reflexivity].
    apply is_power_of_two_spec in E as (k & ->). now elim (N k).
  Qed.
End Radix4Contract.
