(** * Transposes, the column kernels, and the MixedRadixNxn contract, for every number type *)
From Verif Require Export ButterfliesProof Nxn.

Section TransposeProof.
  Context {T : Type} `{Num T}.

  Lemma transpose_ok (input output : list T) w h :
    length input = w * h -> length output = w * h ->
    transpose input output w h = Ok (tab w h (fun x y => nth (y * w + x) input nzero)).
  Proof.
    intros Hi Ho. unfold transpose, rassert. rewrite Hi, Ho, Nat.eqb_refl. cbn [bind].
    match goal with |- for_range ?lo ?hi ?body ?s = _ =>
      destruct (for_range_inv (fun y out => length out = w * h /\
        forall x y', x < w -> y' < y -> nth (x * h + y') out nzero = nth (y' * w + x) input nzero)
        lo hi body s) as (o' & E & L & R) end.
    - lia.
    - split; auto. lia.
    - intros y out Hy (L & R).
      match goal with |- exists _, for_range ?lo ?hi ?body ?s = _ /\ _ =>
        destruct (for_range_inv (fun x out => length out = w * h /\
          (forall x' y', x' < w -> y' < y -> nth (x' * h + y') out nzero = nth (y' * w + x') input nzero) /\
          (forall x', x' < x -> nth (x' * h + y) out nzero = nth (y * w + x') input nzero))
          lo hi body s) as (o' & E & L' & R1 & R2) end.
      + lia.
      + repeat split; auto. lia.
      + intros x out' Hx (L' & R1 & R2).
        rewrite (uidx_ok nzero) by nia. cbn [bind]. rewrite uset_ok by nia.
        eexists. split; [reflexivity|]. rewrite upd_length. split; auto. split.
        * intros x' y' Hx' Hy'. rewrite nth_upd_neq; [auto|].
          intros E. apply rc_inj in E; lia.
        * intros x' Hx'. destruct (Nat.eq_dec x' x) as [->|N].
          -- rewrite nth_upd_eq; auto. nia.
          -- rewrite nth_upd_neq; [apply R2; lia|]. intros E. apply rc_inj in E; lia.
      + exists o'. split; auto. split; auto. intros x y' Hx Hy'.
        destruct (Nat.eq_dec y' y) as [->|]; [now apply R2|]. apply R1; lia.
    - rewrite E. f_equal. apply (mat_ext nzero w h); auto using tab_length.
      intros r c Hr Hc. rewrite nth_tab by auto. now apply R.
  Qed.

  Lemma transpose_half_rev_out_ok (input output : list T) w h :
    0 < w -> length input = w * h -> length output = w * h ->
    transpose_half_rev_out input output w h =
    Ok (tab w h (fun x y => nth ((if x <=? w / 2 then y else h - 1 - y) * w + x) input nzero)).
  Proof.
    intros Hw Hi Ho. unfold transpose_half_rev_out, rassert. rewrite Hi, Ho, !Nat.eqb_refl. cbn [bind].
    assert (Hrb : w / 2 + 1 <= w).
    { assert (w / 2 < w) by (apply Nat.div_lt; lia). lia. }
    match goal with |- for_range ?lo ?hi ?body ?s = _ =>
      destruct (for_range_inv (fun y out => length out = w * h /\
        forall x y', x < w -> y' < y ->
          nth (x * h + (if x <=? w / 2 then y' else h - 1 - y')) out nzero = nth (y' * w + x) input nzero)
        lo hi body s) as (o' & E & L & R) end.
    - lia.
    - split; auto. lia.
    - intros y out Hy (L & R). unfold usub.
      destruct (Nat.leb_spec y h); [|lia]. cbn [bind].
      destruct (Nat.leb_spec 1 (h - y)); [|lia]. cbn [bind].
      match goal with |- exists _, (bind (for_range ?lo ?hi ?body ?s) ?k) = _ /\ _ =>
        destruct (for_range_inv (fun x out => length out = w * h /\
          (forall x' y', x' < w -> y' < y -> nth (x' * h + (if x' <=? w / 2 then y' else h - 1 - y')) out nzero
             = nth (y' * w + x') input nzero) /\
          (forall x', x' < x -> nth (x' * h + y) out nzero = nth (y * w + x') input nzero))
          lo hi body s) as (o1 & E1 & L1 & R1 & R2) end.
      + lia.
      + repeat split; auto. lia.
      + intros x out' Hx (L' & R1 & R2).
        assert (Hxw : x < w) by lia.
        pose proof (rc_bound h w y x (proj2 Hy) Hxw). pose proof (rc_bound w h x y Hxw (proj2 Hy)).
        rewrite (uidx_ok nzero) by lia. cbn [bind]. rewrite uset_ok by lia.
        eexists. split; [reflexivity|]. rewrite upd_length. split; auto. split.
        * intros x' y' Hx' Hy'. rewrite nth_upd_neq; [auto|].
          intros E. destruct (Nat.leb_spec x' (w / 2)); apply rc_inj in E; lia.
        * intros x' Hx'. destruct (Nat.eq_dec x' x) as [->|N].
          -- rewrite nth_upd_eq; auto. lia.
          -- rewrite nth_upd_neq; [apply R2; lia|]. intros E. apply rc_inj in E; lia.
      + rewrite E1. cbn [bind].
        match goal with |- exists _, for_range ?lo ?hi ?body ?s = _ /\ _ =>
          destruct (for_range_inv (fun x out => length out = w * h /\
            (forall x' y', x' < w -> y' < y -> nth (x' * h + (if x' <=? w / 2 then y' else h - 1 - y')) out nzero
               = nth (y' * w + x') input nzero) /\
            (forall x', x' <= w / 2 -> nth (x' * h + y) out nzero = nth (y * w + x') input nzero) /\
            (forall x', w / 2 < x' < x -> nth (x' * h + (h - 1 - y)) out nzero = nth (y * w + x') input nzero))
            lo hi body s) as (o2 & E2 & L2 & Q1 & Q2 & Q3) end.
        * lia.
        * repeat split; auto; [intros; apply R2; lia|intros; lia].
        * intros x out' Hx (L' & Q1 & Q2 & Q3).
          pose proof (rc_bound h w y x (proj2 Hy) (proj2 Hx)).
          assert (Hyr : h - y - 1 < h) by lia. pose proof (rc_bound w h x _ (proj2 Hx) Hyr).
          rewrite (uidx_ok nzero) by lia. cbn [bind]. rewrite uset_ok by lia.
          eexists. split; [reflexivity|]. rewrite upd_length. split; auto. split; [|split].
          -- intros x' y' Hx' Hy'. rewrite nth_upd_neq; [auto|].
             intros E. destruct (Nat.leb_spec x' (w / 2)); apply rc_inj in E; lia.
          -- intros x' Hx'. rewrite nth_upd_neq; [auto|]. intros E. apply rc_inj in E; lia.
          -- intros x' Hx'. destruct (Nat.eq_dec x' x) as [->|N].
             ++ replace (h - 1 - y) with (h - y - 1) by lia. rewrite nth_upd_eq; auto. lia.
             ++ rewrite nth_upd_neq; [apply Q3; lia|]. intros E. apply rc_inj in E; lia.
        * exists o2. split; auto. split; auto. intros x y' Hx Hy'.
          destruct (Nat.eq_dec y' y) as [->|]; [|apply Q1; lia].
          destruct (Nat.leb_spec x (w / 2)); [now apply Q2|apply Q3; lia].
    - rewrite E. f_equal. apply (mat_ext nzero w h); auto using tab_length.
      intros r c Hr Hc. rewrite nth_tab by auto.
      destruct (Nat.leb_spec r (w / 2)) as [Hle|Hgt].
      + specialize (R r c Hr Hc). apply Nat.leb_le in Hle. now rewrite Hle in R.
      + specialize (R r (h - 1 - c) Hr). apply Nat.leb_gt in Hgt. rewrite Hgt in R.
        replace (h - 1 - (h - 1 - c)) with c in R by lia. apply R. lia.
  Qed.
End TransposeProof.

Section ColumnsProof.
  Context {T : Type} `{Num T}.

  Definition col (k h : nat) (buf : list T) (c : nat) : list T :=
    map (fun r => nth (r * h + c) buf nzero) (seq 0 k).

  Lemma col_length k h buf c : length (col k h buf c) = k.
  Proof. unfold col. now rewrite map_length, seq_length. Qed.

  Lemma nth_col k h buf c r d : r < k -> nth r (col k h buf c) d = nth (r * h + c) buf nzero.
  Proof. intros. unfold col. now rewrite nth_map_seq. Qed.

  Lemma read_rows_ok h buf c rs :
    c < h -> (forall r, In r rs -> r * h + c < length buf) ->
    read_rows h buf rs c = Ok (map (fun r => nth (r * h + c) buf nzero) rs).
  Proof.
    intros Hc. induction rs as [|r rs IH]; intros Hr; simpl; auto.
    unfold row_get. apply Nat.ltb_lt in Hc. rewrite Hc.
    rewrite (idx_ok nzero) by (apply Hr; now left). simpl.
    rewrite IH by (intros; apply Hr; now right). reflexivity.
  Qed.

  Lemma read_col_ok k h buf c :
    c < h -> k * h <= length buf -> read_col k h buf c = Ok (col k h buf c).
  Proof.
    intros. unfold read_col. rewrite read_rows_ok; auto.
    intros r Hr. apply in_seq in Hr. nia.
  Qed.

  Lemma nth_combine_seq {A} (a0 : A) a n (l : list A) i :
    i < n -> i < length l -> nth i (combine (seq a n) l) (0, a0) = (a + i, nth i l a0).
  Proof.
    revert a n i; induction l as [|x l IH]; intros a n i Hn Hi; simpl in *; [lia|].
    destruct n as [|n]; [lia|]. simpl. destruct i as [|i]; simpl; [f_equal; lia|].
    rewrite IH by lia. f_equal. lia.
  Qed.

  Lemma write_col_ok h buf c vals :
    c < h -> length vals * h <= length buf ->
    exists buf', write_col h buf c vals = Ok buf' /\ length buf' = length buf /\
      forall r c', c' < h -> nth (r * h + c') buf' nzero =
        if (c' =? c) && (r <? length vals) then nth r vals nzero else nth (r * h + c') buf nzero.
  Proof.
    intros Hc Hl. unfold write_col.
    match goal with |- exists _, for_each ?l ?body ?s = _ /\ _ =>
      destruct (for_each_inv (fun i b => length b = length buf /\
        forall r c', c' < h -> nth (r * h + c') b nzero =
        if (c' =? c) && (r <? i) then nth r vals nzero else nth (r * h + c') buf nzero)
        l body s (0, nzero)) as (b' & E & L & R) end.
    - split; auto. intros. rewrite andb_false_r. reflexivity.
    - intros i b Hi (L & R). rewrite combine_length, seq_length, Nat.min_id in Hi.
      rewrite nth_combine_seq by auto. simpl plus. unfold row_set.
      destruct (Nat.ltb_spec c h); [|lia]. rewrite set_ok by nia.
      eexists. split; [reflexivity|]. rewrite upd_length. split; auto.
      intros r c' Hc'. destruct (Nat.eqb_spec c' c) as [->|N].
      + destruct (Nat.eq_dec r i) as [->|N].
        * rewrite nth_upd_eq by nia. destruct (Nat.ltb_spec i (S i)); [reflexivity|lia].
        * rewrite nth_upd_neq. 2:{ intros E. apply rc_inj in E; lia. }
          rewrite R by auto. rewrite Nat.eqb_refl. simpl.
          destruct (Nat.ltb_spec r i), (Nat.ltb_spec r (S i)); auto; lia.
      + rewrite nth_upd_neq. 2:{ intros E. apply rc_inj in E; lia. }
        rewrite R by auto. apply Nat.eqb_neq in N. rewrite N. reflexivity.
    - exists b'. split; auto. rewrite combine_length, seq_length, Nat.min_id in R. auto.
  Qed.

  Section Apply.
    Context {A : Type}.
    Variables (k h : nat) (bf : list T -> res (list T)) (bfp : list T -> list T).
    Variables (pair : A -> list T -> list T -> res (list T * list T)).
    Variables (pairp : A -> list T -> list T -> list T * list T).
    Hypothesis bf_ok : forall x, length x = k -> bf x = Ok (bfp x) /\ length (bfp x) = k.
    Variable P : A -> Prop.
    Hypothesis pair_ok : forall tw f r, P tw -> length f = k -> length r = k ->
      pair tw f r = Ok (pairp tw f r) /\
      length (fst (pairp tw f r)) = k /\ length (snd (pairp tw f r)) = k.

    (** what one cell holds after the kernel *)
    Definition cols_cell (tw : nat -> A) (buf : list T) (r c : nat) : T :=
      if c =? 0 then nth r (bfp (col k h buf 0)) nzero
      else if 2 * c <? h then
        nth r (fst (pairp (tw c) (col k h buf c) (col k h buf (h - c)))) nzero
      else nth r (snd (pairp (tw (h - c)) (col k h buf (h - c)) (col k h buf c))) nzero.
    Definition cols_fun (tw : nat -> A) (buf : list T) : list T := tab k h (cols_cell tw buf).

    Lemma columns_apply_spec (a0 : A) (tws : list A) (buf : list T) :
      0 < h -> k * h <= length buf -> h / 2 <= length tws -> (forall a, In a tws -> P a) ->
      exists buf', columns_apply k h bf tws pair buf = Ok buf' /\ length buf' = length buf /\
        forall r c, c < h -> nth (r * h + c) buf' nzero =
          if r <? k then cols_cell (fun c => nth (c - 1) tws a0) buf r c else nth (r * h + c) buf nzero.
    Proof.
      intros Hh Hl Ht HP. unfold columns_apply, rassert.
      destruct (Nat.eqb_spec h 0); [lia|]. cbn [negb bind].
      destruct (Nat.leb_spec (k * h) (length buf)); [|lia]. cbn [bind].
      rewrite read_col_ok by auto. cbn [bind].
      destruct (bf_ok (col k h buf 0)) as (E0 & L0); [apply col_length|].
      rewrite E0. cbn [bind].
      destruct (write_col_ok h buf 0 (bfp (col k h buf 0))) as (b0 & Eb0 & Lb0 & Rb0); auto.
      { now rewrite L0. }
      rewrite Eb0. cbn [bind]. rewrite L0 in Rb0.
      set (tw := fun c => nth (c - 1) tws a0).
      assert (Hh2 : 2 * (h / 2) <= h) by (apply Nat.mul_div_le; lia).
      match goal with |- exists _, for_each ?l ?body ?s = _ /\ _ =>
        destruct (for_each_inv (fun i b => length b = length buf /\
          forall r c, c < h -> nth (r * h + c) b nzero =
            if r <? k then
              if c =? 0 then nth r (bfp (col k h buf 0)) nzero
              else if 2 * c <? h then
                if c <=? i then nth r (fst (pairp (tw c) (col k h buf c) (col k h buf (h - c)))) nzero
                else nth (r * h + c) buf nzero
              else
                if h - c <=? i then nth r (snd (pairp (tw (h - c)) (col k h buf (h - c)) (col k h buf c))) nzero
                else nth (r * h + c) buf nzero
            else nth (r * h + c) buf nzero) l body s (0, a0)) as (b' & E & L & R) end.
      - split; [congruence|]. intros r c Hc. rewrite Rb0 by auto.
        destruct (Nat.ltb_spec r k); [|now rewrite andb_false_r].
        destruct (Nat.eqb_spec c 0); [now subst|]. simpl.
        destruct (Nat.ltb_spec (c + (c + 0)) h).
        + destruct (Nat.leb_spec c 0); [lia|reflexivity].
        + destruct (Nat.leb_spec (h - c) 0); [lia|reflexivity].
      - intros i b Hi (L & R). rewrite combine_length, seq_length in Hi.
        rewrite nth_combine_seq by lia. cbn iota beta.
        set (cc := 1 + i) in *.
        assert (Htw : nth i tws a0 = tw cc).
        { unfold tw, cc. f_equal. lia. }
        rewrite Htw. unfold usub at 1. destruct (Nat.leb_spec cc h); [|lia]. cbn [bind].
        rewrite !read_col_ok by lia. cbn [bind].
        assert (C1 : col k h b cc = col k h buf cc).
        { unfold col. apply map_ext_in. intros r Hr. apply in_seq in Hr. rewrite R by lia.
          destruct (Nat.ltb_spec r k); [|lia].
          destruct (Nat.eqb_spec cc 0); [lia|].
          destruct (Nat.ltb_spec (2 * cc) h).
          - destruct (Nat.leb_spec cc i); [lia|reflexivity].
          - destruct (Nat.leb_spec (h - cc) i); [lia|reflexivity]. }
        assert (C2 : col k h b (h - cc) = col k h buf (h - cc)).
        { unfold col. apply map_ext_in. intros r Hr. apply in_seq in Hr. rewrite R by lia.
          destruct (Nat.ltb_spec r k); [|lia].
          destruct (Nat.eqb_spec (h - cc) 0); [lia|].
          destruct (Nat.ltb_spec (2 * (h - cc)) h).
          - destruct (Nat.leb_spec (h - cc) i); [lia|reflexivity].
          - destruct (Nat.leb_spec (h - (h - cc)) i); [lia|reflexivity]. }
        rewrite C1, C2.
        destruct (pair_ok (tw cc) (col k h buf cc) (col k h buf (h - cc))) as (EP & LF & LR);
          auto using col_length.
        { rewrite <- Htw. apply HP, nth_In. lia. }
        rewrite EP. cbn [bind].
        destruct (pairp (tw cc) (col k h buf cc) (col k h buf (h - cc))) as [fw rv] eqn:EPP.
        simpl in LF, LR.
        destruct (write_col_ok h b cc fw) as (b1 & E1 & L1 & R1); [lia|rewrite LF; lia|].
        rewrite E1. cbn [bind].
        destruct (write_col_ok h b1 (h - cc) rv) as (b2 & E2 & L2 & R2); [lia|rewrite LR, L1; lia|].
        exists b2. split; auto. split; [congruence|].
        intros r c Hc. rewrite R2, R1, R by auto. rewrite LF, LR.
        destruct (Nat.ltb_spec r k); [|now rewrite !andb_false_r].
        rewrite !andb_true_r.
        destruct (Nat.eqb_spec c (h - cc)) as [Ec|Nc].
        + destruct (Nat.eqb_spec c 0); [lia|].
          destruct (Nat.ltb_spec (2 * c) h); [lia|].
          destruct (Nat.leb_spec (h - c) cc); [|lia].
          replace (h - c) with cc by lia. rewrite Ec, EPP. reflexivity.
        + destruct (Nat.eqb_spec c cc) as [Ec'|Nc'].
          * destruct (Nat.eqb_spec c 0); [lia|].
            destruct (Nat.ltb_spec (2 * c) h); [|lia].
            destruct (Nat.leb_spec c cc); [|lia]. rewrite Ec', EPP. reflexivity.
          * destruct (Nat.eqb_spec c 0); [reflexivity|].
            destruct (Nat.ltb_spec (2 * c) h).
            -- destruct (Nat.leb_spec c i), (Nat.leb_spec c cc); auto; lia.
            -- destruct (Nat.leb_spec (h - c) i), (Nat.leb_spec (h - c) cc); auto; lia.
      - exists b'. split; auto. split; auto. rewrite combine_length, seq_length in R.
        intros r c Hc. rewrite R by auto. destruct (Nat.ltb_spec r k); [|reflexivity].
        unfold cols_cell. destruct (Nat.eqb_spec c 0); [reflexivity|].
        assert (Hd : h < 2 * (h / 2) + 2).
        { pose proof (Nat.div_mod h 2). pose proof (Nat.mod_upper_bound h 2). lia. }
        destruct (Nat.ltb_spec (2 * c) h).
        + destruct (Nat.leb_spec c (Nat.min (h / 2) (length tws))); [reflexivity|lia].
        + destruct (Nat.leb_spec (h - c) (Nat.min (h / 2) (length tws))); [reflexivity|lia].
    Qed.

    Lemma columns_apply_ok (a0 : A) (tws : list A) (buf : list T) :
      0 < h -> length buf = k * h -> h / 2 <= length tws -> (forall a, In a tws -> P a) ->
      columns_apply k h bf tws pair buf = Ok (cols_fun (fun c => nth (c - 1) tws a0) buf).
    Proof.
      intros Hh Hl Ht HP.
      destruct (columns_apply_spec a0 tws buf Hh) as (b' & E & L & R); auto; [lia|].
      rewrite E. f_equal. apply (mat_ext nzero k h); [congruence|apply tab_length|].
      intros r c Hr Hc. rewrite R by auto. apply Nat.ltb_lt in Hr as Hr'. rewrite Hr'.
      unfold cols_fun. now rewrite nth_tab.
    Qed.

    Lemma cols_fun_length tw buf : length (cols_fun tw buf) = k * h.
    Proof. apply tab_length. Qed.
  End Apply.
End ColumnsProof.

Section NxnContract.
  Context {T : Type} `{Num T}.
  Variables (k : nat) (d : Dht T) (fi : list T -> list T).
  Variables (apply : list T -> res (list T)) (applyp : list T -> list T).

  (** rows of the transposed input, the second half of them reversed *)
  Definition half_rev (h : nat) (x : list T) : list T :=
    tab k h (fun r c => nth ((if r <=? k / 2 then c else h - 1 - c) * k + r) x nzero).
  Definition nxn_fun (x : list T) : list T :=
    applyp (map_chunks (dht_len d) fi (half_rev (dht_len d) x)).

  Hypothesis k_pos : 0 < k.
  Hypothesis inner_ok : dht_ok d fi.
  Hypothesis inner_inplace : dht_inplace_scratch d <= k * dht_len d.
  Hypothesis inner_oop : dht_oop_scratch d = 0.
  Hypothesis apply_ok : 0 < dht_len d -> forall x, length x = k * dht_len d ->
    apply x = Ok (applyp x).
  Hypothesis apply_len : forall x, length (applyp x) = k * dht_len d.

  Lemma half_rev_length h x : length (half_rev h x) = k * h.
  Proof. apply tab_length. Qed.

  Lemma nxn_ok : dht_ok (nxn k d apply) nxn_fun /\ dht_strict (nxn k d apply).
  Proof.
    unfold nxn. destruct (Nat.ltb_spec (k * dht_len d) (dht_inplace_scratch d)); [lia|].
    rewrite Nat.add_0_r. apply boilerplate_dht_ok.
    - intros. apply apply_len.
    - intros Hn c scr Hc Hs. assert (Hh : 0 < dht_len d) by nia.
      unfold nxn_inplace. rewrite transpose_half_rev_out_ok by auto. cbn [bind].
      fold (half_rev (dht_len d) c).
      pose proof (half_rev_length (dht_len d) c) as HR.
      destruct (ok_oop _ _ inner_ok Hh k (half_rev (dht_len d) c) c [] k_pos HR) as (i' & s' & E & L1 & L2 & _);
        [congruence|rewrite inner_oop; simpl; lia|].
      rewrite E. cbn [bind]. rewrite apply_ok; auto.
      + cbn [bind]. exists i'. split; [reflexivity|]. lia.
      + apply map_chunks_length; auto. apply (ok_len _ _ inner_ok).
    - intros Hn i out scr Hi Ho Hs. assert (Hh : 0 < dht_len d) by nia.
      unfold nxn_oop. rewrite transpose_half_rev_out_ok by auto. cbn [bind].
      fold (half_rev (dht_len d) i).
      pose proof (half_rev_length (dht_len d) i) as HR.
      destruct (ok_inplace _ _ inner_ok Hh k (half_rev (dht_len d) i) i k_pos HR) as (i' & E & L1 & _);
        [lia|].
      rewrite E. cbn [bind]. rewrite apply_ok; auto.
      + cbn [bind]. exists i', scr. split; [reflexivity|]. split; auto. lia.
      + apply map_chunks_length; auto. apply (ok_len _ _ inner_ok).
  Qed.
End NxnContract.
