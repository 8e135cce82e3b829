(** * MixedRadix meets the contract, for every number type *)
From Verif Require Export NxnInst MixedRadix.

Section MixedPure.
  Context {T : Type} `{Num T}.
  Variable W : nat.

  (** the twiddle-multiplied column c (from columns c and H-c, [f] and [v]); [tw r] is the factor of row r *)
  Definition mixed_fwd (tw : nat -> cplx T) (f v : list T) (r : nat) : T :=
    let F i := nth i f nzero in let V i := nth i v nzero in
    if r =? 0 then F 0
    else if 2 * r <? W then
      re (tw r) *! (F r +! V (W - r)) -! im (tw r) *! (F (W - r) -! V r)
    else if 2 * r =? W then
      re (tw r) *! (F r -! V r) +! im (tw r) *! (F r +! V r)
    else re (tw (W - r)) *! (F r -! V (W - r)) +! im (tw (W - r)) *! (F (W - r) +! V r).
  (** the twiddle-multiplied column H-c *)
  Definition mixed_rev (tw : nat -> cplx T) (f v : list T) (r : nat) : T :=
    let F i := nth i f nzero in let V i := nth i v nzero in
    if r =? 0 then V 0
    else if 2 * r <? W then
      re (tw r) *! (F (W - r) +! V r) -! im (tw r) *! (F r -! V (W - r))
    else if 2 * r =? W then
      re (tw r) *! (F r +! V r) -! im (tw r) *! (F r -! V r)
    else re (tw (W - r)) *! (F (W - r) -! V r) +! im (tw (W - r)) *! (F r +! V (W - r)).
  Definition mixed_pairp (fw : list T -> list T) (tw : nat -> cplx T) (f v : list T)
    : list T * list T :=
    (fw (map (mixed_fwd tw f v) (seq 0 W)), rev (fw (map (mixed_rev tw f v) (seq 0 W)))).
End MixedPure.

Section MixedProof.
  Context {T : Type} {NT : Num T}.
  Variables W H : nat.
  Let tw (c r : nat) : cplx T := tw8 W H r c.

  (** cell (r, c) after apply_twiddles *)
  Definition mixed_val (buf : list T) (r c : nat) : T :=
    if c =? 0 then nth (r * H + c) buf nzero
    else if 2 * c <? H then mixed_fwd W (tw c) (col W H buf c) (col W H buf (H - c)) r
    else mixed_rev W (tw (H - c)) (col W H buf (H - c)) (col W H buf c) r.

  Ltac dec :=
    repeat match goal with
    | |- context [Nat.eqb ?a ?b] => destruct (Nat.eqb_spec a b); try lia
    | |- context [Nat.ltb ?a ?b] => destruct (Nat.ltb_spec a b); try lia
    | |- context [Nat.leb ?a ?b] => destruct (Nat.leb_spec a b); try lia
    end.

  Lemma nth_upd_rc (b : list T) h r c r' c' v :
    c < h -> c' < h -> r' * h + c' < length b ->
    nth (r * h + c) (upd b (r' * h + c') v) nzero =
    if (r =? r') && (c =? c') then v else nth (r * h + c) b nzero.
  Proof.
    intros. destruct (Nat.eqb_spec r r'), (Nat.eqb_spec c c'); subst; simpl;
      try (now rewrite nth_upd_eq); rewrite nth_upd_neq; auto; intros E; apply rc_inj in E; lia.
  Qed.

  Lemma mixed_cell_ok row c twd b :
    length b = W * H -> 0 < row -> 2 * row < W -> 0 < c -> 2 * c <= H ->
    let g r c := nth (r * H + c) b nzero in
    exists b', mixed_cell H row (W - row) c twd b = Ok b' /\ length b' = W * H /\
      forall r x, x < H -> nth (r * H + x) b' nzero =
        if (r =? W - row) && (x =? H - c) then
          re twd *! (g row c -! g (W - row) (H - c)) +! im twd *! (g (W - row) c +! g row (H - c))
        else if (r =? W - row) && (x =? c) then
          re twd *! (g (W - row) c -! g row (H - c)) +! im twd *! (g row c +! g (W - row) (H - c))
        else if (r =? row) && (x =? H - c) then
          re twd *! (g (W - row) c +! g row (H - c)) -! im twd *! (g row c -! g (W - row) (H - c))
        else if (r =? row) && (x =? c) then
          re twd *! (g row c +! g (W - row) (H - c)) -! im twd *! (g (W - row) c -! g row (H - c))
        else g r x.
  Proof.
    intros Lb Hr0 Hr Hc0 Hc g. unfold mixed_cell. rewrite !(Nat.mul_comm H).
    unfold usub. destruct (Nat.leb_spec c H); [|lia]. cbn [bind].
    assert (B : forall r x, r < W -> x < H -> r * H + x < W * H) by (intros; apply rc_bound; auto).
    rewrite !(idx_ok nzero) by (rewrite Lb; apply B; lia). cbn [bind].
    rewrite set_ok by (rewrite Lb; apply B; lia). cbn [bind].
    rewrite set_ok by (rewrite ?upd_length, Lb; apply B; lia). cbn [bind].
    rewrite set_ok by (rewrite ?upd_length, Lb; apply B; lia). cbn [bind].
    rewrite set_ok by (rewrite ?upd_length, Lb; apply B; lia).
    eexists. split; [reflexivity|]. rewrite !upd_length. split; auto.
    intros r x Hx.
    repeat (rewrite nth_upd_rc by (rewrite ?upd_length, ?Lb; auto; try lia; apply B; lia)).
    reflexivity.
  Qed.

  Lemma mixed_cell_mid_ok row c twd b :
    length b = W * H -> row < W -> 0 < c -> 2 * c <= H ->
    let g r c := nth (r * H + c) b nzero in
    exists b', mixed_cell_mid H row c twd b = Ok b' /\ length b' = W * H /\
      forall r x, x < H -> nth (r * H + x) b' nzero =
        if (r =? row) && (x =? H - c) then
          re twd *! (g row c +! g row (H - c)) -! im twd *! (g row c -! g row (H - c))
        else if (r =? row) && (x =? c) then
          re twd *! (g row c -! g row (H - c)) +! im twd *! (g row c +! g row (H - c))
        else g r x.
  Proof.
    intros Lb Hr Hc0 Hc g. unfold mixed_cell_mid. rewrite !(Nat.mul_comm H).
    unfold usub. destruct (Nat.leb_spec c H); [|lia]. cbn [bind].
    assert (B : forall r x, r < W -> x < H -> r * H + x < W * H) by (intros; apply rc_bound; auto).
    rewrite !(idx_ok nzero) by (rewrite Lb; apply B; lia). cbn [bind].
    rewrite set_ok by (rewrite Lb; apply B; lia). cbn [bind].
    rewrite set_ok by (rewrite ?upd_length, Lb; apply B; lia).
    eexists. split; [reflexivity|]. rewrite !upd_length. split; auto.
    intros r x Hx.
    repeat (rewrite nth_upd_rc by (rewrite ?upd_length, ?Lb; auto; try lia; apply B; lia)).
    reflexivity.
  Qed.

  Lemma half_lt h : 2 * (h / 2) <= h < 2 * (h / 2) + 2.
  Proof. pose proof (Nat.div_mod h 2). pose proof (Nat.mod_upper_bound h 2). lia. Qed.

  (** one row (and its mirror) *)
  Lemma mixed_row_ok row chunk buf b :
    length b = W * H -> 0 < row -> 2 * row < W ->
    length chunk = H / 2 -> (forall i, i < H / 2 -> nth i chunk (tw 0 0) = tw (1 + i) row) ->
    (forall x, x < H -> nth (row * H + x) b nzero = nth (row * H + x) buf nzero) ->
    (forall x, x < H -> nth ((W - row) * H + x) b nzero = nth ((W - row) * H + x) buf nzero) ->
    exists b',
      for_each (combine (seq 1 (H / 2)) chunk) (fun '(column, twiddle) buffer =>
          mixed_cell H row (W - row) column twiddle buffer) b = Ok b' /\ length b' = W * H /\
      forall r x, x < H -> nth (r * H + x) b' nzero =
        if (r =? row) || (r =? W - row) then mixed_val buf r x else nth (r * H + x) b nzero.
  Proof.
    intros Lb Hr0 Hr Lc Hc G1 G2. pose proof (half_lt H) as Hh.
    match goal with |- exists _, for_each ?l ?body ?s = _ /\ _ =>
      destruct (for_each_inv (fun i b' => length b' = W * H /\
        forall r x, x < H -> nth (r * H + x) b' nzero =
          if ((r =? row) || (r =? W - row)) && (if 2 * x <? H then x <=? i else H - x <=? i)
          then mixed_val buf r x else nth (r * H + x) b nzero) l body s (0, tw 0 0)) as (b' & E & L & R) end.
    - split; auto. intros r x Hx.
      destruct (Nat.eqb_spec r row) as [->|]; [|destruct (Nat.eqb_spec r (W - row)) as [->|]]; simpl orb;
        cbn [andb]; auto; dec; auto; assert (x = 0) by lia; subst x;
        unfold mixed_val; simpl (0 =? 0); cbn iota.
      + apply G1; auto.
      + apply G2; auto.
    - intros i b1 Hi (L & R). rewrite combine_length, seq_length, Lc, Nat.min_id in Hi.
      rewrite nth_combine_seq by lia. rewrite Hc by auto. cbn iota beta.
      destruct (mixed_cell_ok row (1 + i) (tw (1 + i) row) b1) as (b2 & E2 & L2 & R2); auto; try lia.
      exists b2. split; auto. split; auto.
      assert (Gr : forall x, (x = 1 + i \/ x = H - (1 + i)) -> nth (row * H + x) b1 nzero = nth (row * H + x) buf nzero).
      { intros x Hx. rewrite R by lia. rewrite Nat.eqb_refl. simpl orb. cbn [andb].
        rewrite G1 by lia. dec; auto. }
      assert (Gw : forall x, (x = 1 + i \/ x = H - (1 + i)) -> nth ((W - row) * H + x) b1 nzero = nth ((W - row) * H + x) buf nzero).
      { intros x Hx. rewrite R by lia. rewrite Nat.eqb_refl, orb_true_r. cbn [andb].
        rewrite G2 by lia. dec; auto. }
      intros r x Hx. rewrite R2 by auto. rewrite !Gr, !Gw by auto.
      destruct (Nat.eqb_spec r (W - row)) as [Er|Nr].
      + rewrite Er. destruct (Nat.eqb_spec (W - row) row); [lia|]. simpl orb. cbn [andb].
        destruct (Nat.eqb_spec x (H - (1 + i))) as [Ex|Nx].
        * destruct (Nat.ltb_spec (2 * x) H); [lia|]. destruct (Nat.leb_spec (H - x) (1 + i)); [|lia].
          unfold mixed_val. destruct (Nat.eqb_spec x 0); [lia|]. destruct (Nat.ltb_spec (2 * x) H); [lia|].
          unfold mixed_rev. rewrite !nth_col by lia. dec.
          replace (W - (W - row)) with row by lia. replace (H - x) with (1 + i) by lia.
          rewrite Ex. reflexivity.
        * destruct (Nat.eqb_spec x (1 + i)) as [Ex|Nx'].
          -- destruct (Nat.ltb_spec (2 * x) H); [|lia]. destruct (Nat.leb_spec x (1 + i)); [|lia].
             unfold mixed_val. destruct (Nat.eqb_spec x 0); [lia|]. destruct (Nat.ltb_spec (2 * x) H); [|lia].
             unfold mixed_fwd. rewrite !nth_col by lia. dec.
             replace (W - (W - row)) with row by lia. rewrite Ex. reflexivity.
          -- rewrite R by auto. rewrite Nat.eqb_refl, orb_true_r. cbn [andb]. dec; auto.
      + simpl orb. rewrite orb_false_r. cbn [andb].
        destruct (Nat.eqb_spec r row) as [Er|Nr'].
        2:{ cbn [andb]. rewrite R by auto. dec; reflexivity. }
        rewrite Er. cbn [andb].
        destruct (Nat.eqb_spec x (H - (1 + i))) as [Ex|Nx].
        * destruct (Nat.ltb_spec (2 * x) H); [lia|]. destruct (Nat.leb_spec (H - x) (1 + i)); [|lia].
          unfold mixed_val. destruct (Nat.eqb_spec x 0); [lia|]. destruct (Nat.ltb_spec (2 * x) H); [lia|].
          unfold mixed_rev. rewrite !nth_col by lia. dec.
          replace (H - x) with (1 + i) by lia. rewrite Ex. reflexivity.
        * destruct (Nat.eqb_spec x (1 + i)) as [Ex|Nx'].
          -- destruct (Nat.ltb_spec (2 * x) H); [|lia]. destruct (Nat.leb_spec x (1 + i)); [|lia].
             unfold mixed_val. destruct (Nat.eqb_spec x 0); [lia|]. destruct (Nat.ltb_spec (2 * x) H); [|lia].
             unfold mixed_fwd. rewrite !nth_col by lia. dec.
             rewrite Ex. reflexivity.
          -- rewrite R by auto. rewrite Nat.eqb_refl. simpl orb. cbn [andb]. dec; auto.
    - exists b'. split; auto. split; auto. rewrite combine_length, seq_length, Lc, Nat.min_id in R.
      intros r x Hx. rewrite R by auto. destruct ((r =? row) || (r =? W - row)); auto. cbn [andb].
      dec; auto.
  Qed.

  (** the middle row *)
  Lemma mixed_mid_ok row chunk buf b :
    length b = W * H -> 0 < row -> 2 * row = W ->
    length chunk = H / 2 -> (forall i, i < H / 2 -> nth i chunk (tw 0 0) = tw (1 + i) row) ->
    (forall x, x < H -> nth (row * H + x) b nzero = nth (row * H + x) buf nzero) ->
    exists b',
      for_each (combine (seq 1 (H / 2)) chunk) (fun '(column, twiddle) buffer =>
          mixed_cell_mid H row column twiddle buffer) b = Ok b' /\ length b' = W * H /\
      forall r x, x < H -> nth (r * H + x) b' nzero =
        if r =? row then mixed_val buf r x else nth (r * H + x) b nzero.
  Proof.
    intros Lb Hr0 Hr Lc Hc G1. pose proof (half_lt H) as Hh.
    match goal with |- exists _, for_each ?l ?body ?s = _ /\ _ =>
      destruct (for_each_inv (fun i b' => length b' = W * H /\
        forall r x, x < H -> nth (r * H + x) b' nzero =
          if (r =? row) && (if 2 * x <? H then x <=? i else H - x <=? i)
          then mixed_val buf r x else nth (r * H + x) b nzero) l body s (0, tw 0 0)) as (b' & E & L & R) end.
    - split; auto. intros r x Hx.
      destruct (Nat.eqb_spec r row) as [->|]; cbn [andb]; auto; dec; auto; assert (x = 0) by lia; subst x;
        unfold mixed_val; simpl (0 =? 0); cbn iota.
      apply G1; auto.
    - intros i b1 Hi (L & R). rewrite combine_length, seq_length, Lc, Nat.min_id in Hi.
      rewrite nth_combine_seq by lia. rewrite Hc by auto. cbn iota beta.
      destruct (mixed_cell_mid_ok row (1 + i) (tw (1 + i) row) b1) as (b2 & E2 & L2 & R2); auto; try lia.
      exists b2. split; auto. split; auto.
      assert (Gr : forall x, (x = 1 + i \/ x = H - (1 + i)) -> nth (row * H + x) b1 nzero = nth (row * H + x) buf nzero).
      { intros x Hx. rewrite R by lia. rewrite Nat.eqb_refl. cbn [andb].
        rewrite G1 by lia. dec; auto. }
      intros r x Hx. rewrite R2 by auto. rewrite !Gr by auto.
      destruct (Nat.eqb_spec r row) as [Er|Nr].
      2:{ cbn [andb]. rewrite R by auto. dec; reflexivity. }
      rewrite Er. cbn [andb].
      destruct (Nat.eqb_spec x (H - (1 + i))) as [Ex|Nx].
      * destruct (Nat.ltb_spec (2 * x) H); [lia|]. destruct (Nat.leb_spec (H - x) (1 + i)); [|lia].
        unfold mixed_val. destruct (Nat.eqb_spec x 0); [lia|]. destruct (Nat.ltb_spec (2 * x) H); [lia|].
        unfold mixed_rev. rewrite !nth_col by lia. dec.
        replace (H - x) with (1 + i) by lia. rewrite Ex. reflexivity.
      * destruct (Nat.eqb_spec x (1 + i)) as [Ex|Nx'].
        -- destruct (Nat.ltb_spec (2 * x) H); [|lia]. destruct (Nat.leb_spec x (1 + i)); [|lia].
           unfold mixed_val. destruct (Nat.eqb_spec x 0); [lia|]. destruct (Nat.ltb_spec (2 * x) H); [|lia].
           unfold mixed_fwd. rewrite !nth_col by lia. dec.
           rewrite Ex. reflexivity.
        -- rewrite R by auto. rewrite Nat.eqb_refl. cbn [andb]. dec; auto.
    - exists b'. split; auto. split; auto. rewrite combine_length, seq_length, Lc, Nat.min_id in R.
      intros r x Hx. rewrite R by auto. destruct (r =? row); auto. cbn [andb].
      dec; auto.
  Qed.
End MixedProof.

Section MixedContract.
  Context {T : Type} {NT : Num T}.

  Lemma reverse_second_half_ok (b : list T) k h rb :
    0 < h -> length b = k * h -> rb <= k ->
    reverse_second_half b (rb * h) h =
    Ok (tab k h (fun r c => nth (r * h + (if r <? rb then c else h - 1 - c)) b nzero)).
  Proof.
    intros Hh Lb Hrb. unfold reverse_second_half.
    assert (Hle : rb * h <= k * h) by nia.
    rewrite split_at_ok by lia. cbn [bind].
    assert (Ls : length (skipn (rb * h) b) = (k - rb) * h) by (rewrite skipn_length; nia).
    rewrite (reverse_chunks_ok h (k - rb)) by auto. cbn [bind]. f_equal.
    assert (Lf : length (firstn (rb * h) b) = rb * h) by (rewrite firstn_length; lia).
    assert (Hrev : forall c : list T, length c = h -> length (rev c) = h) by (intros; now rewrite rev_length).
    apply (mat_ext nzero k h); [|apply tab_length|].
    - rewrite app_length, Lf, (map_chunks_length h (k - rb)); auto. nia.
    - intros r c Hr Hc. rewrite nth_tab by auto. destruct (Nat.ltb_spec r rb).
      + rewrite app_nth1 by (rewrite Lf; apply rc_bound; auto). apply nth_firstn, rc_bound; auto.
      + rewrite app_nth2 by (rewrite Lf; nia). rewrite Lf.
        replace (r * h + c - rb * h) with ((r - rb) * h + c) by nia.
        rewrite (nth_map_chunks h (k - rb)) by (auto; lia).
        assert (Lsl : length (slice (skipn (rb * h) b) ((r - rb) * h) h) = h) by (apply slice_length; nia).
        rewrite nth_rev' by lia. rewrite Lsl, nth_slice, nth_skipn by lia. f_equal. nia.
  Qed.

  Lemma mixed_apply_ok W H (buf : list T) :
    0 < W -> 0 < H -> length buf = W * H ->
    mixed_apply_twiddles W H (mixed_twiddles W H) buf = Ok (tab W H (mixed_val W H buf)).
  Proof.
    intros HW HH Lb. unfold mixed_apply_twiddles. cbv zeta.
    unfold usub at 1. destruct (Nat.leb_spec 1 (H / 2 + 1)); [|lia]. cbn [bind].
    replace (H / 2 + 1 - 1) with (H / 2) by lia.
    destruct ((W <? 2) || (H <? 2)) eqn:Esmall.
    { f_equal. apply (mat_ext nzero W H); auto using tab_length. intros r c Hr Hc.
      rewrite nth_tab by auto. unfold mixed_val.
      apply orb_true_iff in Esmall as [E|E]; apply Nat.ltb_lt in E.
      - assert (r = 0) by lia. subst r. destruct (Nat.eqb_spec c 0); auto.
        unfold mixed_fwd, mixed_rev. simpl (0 =? 0). cbn iota.
        destruct (2 * c <? H); rewrite nth_col by lia; reflexivity.
      - assert (c = 0) by lia. now subst c. }
    apply orb_false_iff in Esmall as [E1 E2]. apply Nat.ltb_ge in E1, E2.
    pose proof (half_lt H) as HhH. pose proof (half_lt W) as HhW. pose proof (half_lt (W + 1)) as HhW1.
    set (f := fun row => map (fun column => cscale (compute_dft_twiddle_inverse (T := T)
               (row * column * 8 + W * H) (W * H * 8)) nroot_half) (seq 1 (H / 2))).
    assert (Etw : mixed_twiddles W H = flat_map f (seq 1 (W / 2))).
    { unfold mixed_twiddles. cbv zeta. replace (H / 2 + 1 - 1) with (H / 2) by lia.
      replace (W / 2 + 1 - 1) with (W / 2) by lia. reflexivity. }
    assert (Lf : forall row, length (f row) = H / 2) by (intros; unfold f; now rewrite map_length, seq_length).
    rewrite Etw, chunks_exact_flat_map by (auto; lia). cbn [bind].
    assert (Hf : forall row i, i < H / 2 -> nth i (f row) (tw8 W H 0 0) = tw8 W H row (1 + i)).
    { intros row i Hi. unfold f. rewrite nth_map_seq by auto. reflexivity. }
    match goal with |- bind (for_each ?l ?body ?s) _ = _ =>
      destruct (for_each_inv (fun i b => length b = W * H /\
        forall r c, c < H -> nth (r * H + c) b nzero =
          if (1 <=? r) && (r <? W) && negb (2 * r =? W) && (if 2 * r <? W then r <=? i else W - r <=? i)
          then mixed_val W H buf r c else nth (r * H + c) buf nzero)
        l body s (0, f 0)) as (b & E & L & R) end.
    - split; auto. intros r c Hc. destruct (Nat.leb_spec 1 r), (Nat.ltb_spec r W); cbn [andb]; auto.
      destruct (negb (2 * r =? W)); cbn [andb]; auto.
      destruct (Nat.ltb_spec (2 * r) W); [destruct (Nat.leb_spec r 0)|destruct (Nat.leb_spec (W - r) 0)]; auto; lia.
    - intros i b1 Hi (L & R). rewrite combine_length, map_length, !seq_length in Hi.
      rewrite nth_combine_seq by (rewrite ?map_length, ?seq_length; lia). cbn iota beta.
      rewrite nth_map_seq by lia. unfold usub at 1. destruct (Nat.leb_spec (1 + i) W); [|lia]. cbn [bind].
      destruct (mixed_row_ok W H (1 + i) (f (1 + i)) buf b1) as (b2 & E2' & L2 & R2); auto; try lia.
      + intros x Hx. rewrite R by auto.
        destruct (Nat.ltb_spec (2 * (1 + i)) W); [|lia]. destruct (Nat.leb_spec (1 + i) i); [lia|].
        now rewrite andb_false_r.
      + intros x Hx. rewrite R by auto.
        destruct (Nat.ltb_spec (2 * (W - (1 + i))) W); [lia|].
        destruct (Nat.leb_spec (W - (W - (1 + i))) i); [lia|]. now rewrite andb_false_r.
      + exists b2. split; auto. split; auto. intros r c Hc. rewrite R2, R by auto.
        destruct (Nat.eqb_spec r (1 + i)); [|destruct (Nat.eqb_spec r (W - (1 + i)))]; cbn [orb].
        * destruct (Nat.leb_spec 1 r), (Nat.ltb_spec r W), (Nat.eqb_spec (2 * r) W),
            (Nat.ltb_spec (2 * r) W), (Nat.leb_spec r (1 + i)); cbn [andb negb]; try lia; auto.
        * destruct (Nat.leb_spec 1 r), (Nat.ltb_spec r W), (Nat.eqb_spec (2 * r) W),
            (Nat.ltb_spec (2 * r) W), (Nat.leb_spec (W - r) (1 + i)); cbn [andb negb]; try lia; auto.
        * destruct (Nat.leb_spec 1 r), (Nat.ltb_spec r W), (Nat.eqb_spec (2 * r) W); cbn [andb negb]; auto.
          destruct (Nat.ltb_spec (2 * r) W).
          -- destruct (Nat.leb_spec r i), (Nat.leb_spec r (1 + i)); auto; lia.
          -- destruct (Nat.leb_spec (W - r) i), (Nat.leb_spec (W - r) (1 + i)); auto; lia.
    - rewrite E. cbn [bind]. rewrite combine_length, map_length, !seq_length in R.
      assert (R' : forall r c, r < W -> c < H -> nth (r * H + c) b nzero =
                if (2 * r =? W) then nth (r * H + c) buf nzero else mixed_val W H buf r c).
      { intros r c Hr Hc. rewrite R by auto. destruct (Nat.ltb_spec r W); [|lia].
        destruct (Nat.eqb_spec (2 * r) W); [now rewrite !andb_false_r|].
        destruct (Nat.leb_spec 1 r); cbn [andb negb].
        - destruct (Nat.ltb_spec (2 * r) W).
          + match goal with |- context [r <=? ?m] => destruct (Nat.leb_spec r m); auto; lia end.
          + match goal with |- context [W - r <=? ?m] => destruct (Nat.leb_spec (W - r) m); auto; lia end.
        - assert (r = 0) by lia. subst r. unfold mixed_val.
          destruct (Nat.eqb_spec c 0); auto.
          unfold mixed_fwd, mixed_rev. simpl (0 =? 0). cbn iota.
          destruct (2 * c <? H); rewrite nth_col by lia; reflexivity. }
      clear R. destruct (Nat.eqb_spec (W mod 2) 0) as [Ev|Od].
      + assert (HW2 : W = 2 * (W / 2)) by (apply Nat.div_exact in Ev; lia).
        rewrite (idx_ok (f 0)) by (rewrite map_length, seq_length; lia). cbn [bind].
        rewrite nth_map_seq by lia. replace (1 + ((W + 1) / 2 - 1)) with (W / 2) by lia.
        destruct (mixed_mid_ok W H (W / 2) (f (W / 2)) buf b) as (b2 & E2' & L2 & R2); auto; try lia.
        { intros x Hx. rewrite R' by lia. destruct (Nat.eqb_spec (2 * (W / 2)) W); auto; lia. }
        rewrite E2'. f_equal. apply (mat_ext nzero W H); auto using tab_length.
        intros r c Hr Hc. rewrite R2, R', nth_tab by auto.
        destruct (Nat.eqb_spec r (W / 2)), (Nat.eqb_spec (2 * r) W); auto; lia.
      + f_equal. apply (mat_ext nzero W H); auto using tab_length.
        intros r c Hr Hc. rewrite R', nth_tab by auto.
        destruct (Nat.eqb_spec (2 * r) W); auto. exfalso. apply Od.
        rewrite <- e, Nat.mul_comm. apply Nat.mod_mul. lia.
  Qed.
End MixedContract.
