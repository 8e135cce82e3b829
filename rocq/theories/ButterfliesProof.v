(** * The butterflies and the naive algorithm meet the contract, for every number type *)
From Verif Require Export Contract Butterflies Naive.

Section ButterflyContract.
  Context {T : Type} `{Num T}.

  (** result of running a butterfly kernel on one aliased chunk *)
  Definition bf_fun (contig : raw T -> res (raw T)) (x : list T) : list T :=
    match run_alias contig x with Ok r => r | _ => [] end.

  (** the kernel gives the same result aliased and not aliased, on chunks of [n] elements *)
  Definition kernel_ok (n : nat) (contig : raw T -> res (raw T)) : Prop :=
    forall x, length x = n ->
      length (bf_fun contig x) = n /\
      contig (Alias x) = Ok (Alias (bf_fun contig x)) /\
      forall out, length out = n -> contig (Sep x out) = Ok (Sep x (bf_fun contig x)).

  Lemma kernel_run_alias n contig x :
    kernel_ok n contig -> length x = n -> run_alias contig x = Ok (bf_fun contig x).
  Proof. intros K Hx. destruct (K x Hx) as (_ & E & _). unfold run_alias. now rewrite E. Qed.

  Lemma butterfly_ok n contig :
    0 < n -> kernel_ok n contig ->
    dht_ok (boilerplate_butterfly n contig) (bf_fun contig) /\
    dht_strict (boilerplate_butterfly n contig).
  Proof.
    intros Hn K.
    assert (Hf : forall c, length c = n -> length (bf_fun contig c) = n) by (intros; now apply K).
    assert (Ha : forall (c : list T) (st : unit), length c = n -> True ->
      exists st', (chunk' <- run_alias contig c ;; Ok (chunk', st)) = Ok (bf_fun contig c, st') /\ True).
    { intros. exists st. split; auto. now rewrite (kernel_run_alias n). }
    assert (Hs : forall (i o : list T) (st : unit), length i = n -> length o = n -> True ->
      exists i' st', ('(i', o') <- run_sep contig i o ;; Ok (i', o', st)) = Ok (i', bf_fun contig i, st')
                     /\ length i' = n /\ True).
    { intros. exists i, st. repeat split; auto. unfold run_sep. destruct (K i H0) as (_ & _ & E).
      rewrite E by auto. reflexivity. }
    split.
    - split; simpl; auto; try lia.
      + intros _ m b scr Hm Hb _.
        destruct (Nat.ltb_spec (length b) n); [nia|].
        destruct (iter_chunks_spec n (bf_fun contig) (fun _ => True) Hn _ b tt Ha Hf I)
          as (b' & s' & E & _ & R).
        rewrite Hb, (mult_mod m n Hn) in E, R. rewrite E. simpl. rewrite R by auto. eauto.
      + intros _ m i o scr Hm Hi Ho _.
        destruct (Nat.ltb_spec (length i) n); [nia|].
        destruct (Nat.eqb_spec (length o) (length i)); [|lia]. simpl.
        destruct (iter_chunks_zipped_spec n (bf_fun contig) (fun _ => True) Hn _ i o tt Hs Hf Ho I)
          as (i' & o' & s' & E & L & _ & R).
        rewrite Hi, (mult_mod m n Hn) in E, R. rewrite E. simpl. rewrite R by auto.
        eexists _, _. split; [reflexivity|]. split; [lia|auto].
    - intros _. unfold valid_inplace, valid_oop. simpl. split.
      + intros b scr Hv. destruct (Nat.ltb_spec (length b) n).
        { rewrite dht_error_inplace_panic by (auto; lia). reflexivity. }
        destruct (iter_chunks_spec n (bf_fun contig) (fun _ => True) Hn _ b tt Ha Hf I)
          as (b' & s' & E & _ & R).
        rewrite E. simpl. destruct (Nat.eqb_spec (length b mod n) 0).
        { exfalso. apply Hv. repeat split; auto. lia. }
        rewrite dht_error_inplace_panic by (auto; lia). reflexivity.
      + intros i o scr Hv.
        destruct (Nat.ltb_spec (length i) n); simpl.
        { rewrite dht_error_outofplace_panic by (auto; lia). reflexivity. }
        destruct (Nat.eqb_spec (length o) (length i)) as [Ho|Ho]; simpl.
        2:{ rewrite dht_error_outofplace_panic by (auto; lia). reflexivity. }
        destruct (iter_chunks_zipped_spec n (bf_fun contig) (fun _ => True) Hn _ i o tt Hs Hf Ho I)
          as (i' & o' & s' & E & L & _ & R).
        rewrite E. simpl. destruct (Nat.eqb_spec (length i mod n) 0).
        { exfalso. apply Hv. repeat split; auto; lia. }
        rewrite dht_error_outofplace_panic by (auto; lia). reflexivity.
  Qed.

  Lemma butterfly1_ok : dht_ok (butterfly1 (T := T)) (fun x => x).
  Proof.
    assert (M : forall (x : list T) m, length x = m * 1 -> map_chunks 1 (fun x => x) x = x).
    { intros x m. revert x. induction m as [|m IH]; intros x Hx.
      - destruct x; [reflexivity|simpl in Hx; lia].
      - destruct x as [|a x]; [simpl in Hx; lia|].
        change (a :: x) with ([a] ++ x). rewrite map_chunks_cons by auto.
        rewrite IH by (simpl in Hx; lia). reflexivity. }
    split; simpl; auto.
    - intros _ m b s Hm Hb _. rewrite (M b m) by lia. eauto.
    - intros _ m i o s Hm Hi Ho _. unfold copy_from_slice. rewrite Ho, Nat.eqb_refl. simpl.
      rewrite (M i m) by lia. exists i, s. auto.
    - lia.
  Qed.

  Ltac list_of n x Hx :=
    match n with
    | 0 => destruct x; [|simpl in Hx; discriminate]
    | S ?m => destruct x as [|? x]; [simpl in Hx; discriminate|list_of m x Hx]
    end.
  Ltac kernel n :=
    let x := fresh "x" in let Hx := fresh in
    intros x Hx; list_of n x Hx; clear Hx;
    split; [reflexivity|split; [reflexivity|]];
    let o := fresh "o" in let Ho := fresh in intros o Ho; list_of n o Ho; reflexivity.

  Lemma bf2_kernel : kernel_ok 2 bf2_contig.
  Proof. kernel 2. Qed.
  Lemma bf3_kernel tw : kernel_ok 3 (bf3_contig tw).
  Proof. kernel 3. Qed.
  Lemma bf4_kernel : kernel_ok 4 bf4_contig.
  Proof. kernel 4. Qed.
  Lemma bf5_kernel tw : kernel_ok 5 (bf5_contig tw).
  Proof. destruct tw. kernel 5. Qed.
  Lemma bf6_kernel tw : kernel_ok 6 (bf6_contig tw).
  Proof. kernel 6. Qed.
  Lemma bf8_kernel tw : kernel_ok 8 (bf8_contig tw).
  Proof. kernel 8. Qed.
  Lemma bf9_kernel tw : kernel_ok 9 (bf9_contig tw).
  Proof. kernel 9. Qed.
  Lemma bf16_kernel tw : kernel_ok 16 (bf16_contig tw).
  Proof. destruct tw. kernel 16. Qed.
End ButterflyContract.

Section NaiveContract.
  Context {T : Type} `{Num T}.

  (** the k-th output is the left-to-right sum of twiddle((j*k) mod n) * x[j] *)
  Definition naive_fun (n : nat) (x : list T) : list T :=
    map (fun k =>
      fold_left (fun acc j => acc +! compute_dht_twiddle ((j * k) mod n) n *! nth j x nzero)
                (seq 0 n) nzero)
      (seq 0 n).

  Lemma naive_twiddles_length n : length (naive_twiddles n) = n.
  Proof. unfold naive_twiddles. now rewrite map_length, seq_length. Qed.

  Lemma naive_inner n k x :
    0 < n -> k < n -> length x = n ->
    for_each x (fun input_cell '(output_value, twiddle_index) =>
          twiddle <- idx (naive_twiddles n) twiddle_index ;;
          let output_value := output_value +! twiddle *! input_cell in
          let twiddle_index := twiddle_index + k in
          twiddle_index <- (if length (naive_twiddles n) <=? twiddle_index
                            then usub twiddle_index (length (naive_twiddles n))
                            else Ok twiddle_index) ;;
          Ok (output_value, twiddle_index)) (nzero, 0)
    = Ok (fold_left (fun acc j => acc +! compute_dht_twiddle ((j * k) mod n) n *! nth j x nzero)
                    (seq 0 n) nzero, (n * k) mod n).
  Proof.
    intros Hn Hk Hx.
    destruct (for_each_inv (fun i '(v, t) =>
        v = fold_left (fun acc j => acc +! compute_dht_twiddle ((j * k) mod n) n *! nth j x nzero)
                    (seq 0 i) nzero /\ t = (i * k) mod n) x
      (fun input_cell '(output_value, twiddle_index) =>
          twiddle <- idx (naive_twiddles n) twiddle_index ;;
          let output_value := output_value +! twiddle *! input_cell in
          let twiddle_index := twiddle_index + k in
          twiddle_index <- (if length (naive_twiddles n) <=? twiddle_index
                            then usub twiddle_index (length (naive_twiddles n))
                            else Ok twiddle_index) ;;
          Ok (output_value, twiddle_index)) (nzero, 0) nzero) as ([v t] & E & Ev & Et).
    - simpl. rewrite Nat.mod_0_l; auto. lia.
    - intros i [v t] Hi [-> ->].
      assert (B : (i * k) mod n < n) by (apply Nat.mod_upper_bound; lia).
      rewrite (idx_ok nzero) by (now rewrite naive_twiddles_length).
      unfold naive_twiddles at 1. rewrite nth_map_seq by auto. cbn [bind]. rewrite naive_twiddles_length.
      assert (M : (if n <=? (i * k) mod n + k then usub ((i * k) mod n + k) n else Ok ((i * k) mod n + k))
                  = Ok (((1 + i) * k) mod n)).
      { replace ((1 + i) * k) with (i * k + k) by lia.
        rewrite (Nat.div_mod (i * k) n) at 4 by lia.
        replace (n * (i * k / n) + (i * k) mod n + k) with ((i * k) mod n + k + (i * k / n) * n) by lia.
        rewrite Nat.mod_add by lia.
        destruct (Nat.leb_spec n ((i * k) mod n + k)).
        - unfold usub. destruct (Nat.leb_spec n ((i * k) mod n + k)); [|lia]. f_equal.
          apply (Nat.mod_unique _ _ 1); lia.
        - f_equal. symmetry. now apply Nat.mod_small. }
      cbv zeta. rewrite M. simpl bind. eexists. split; [reflexivity|]. split; [|reflexivity].
      replace (1 + i) with (i + 1) by lia. rewrite seq_app, fold_left_app. reflexivity.
    - rewrite E. rewrite Hx in *. now subst.
  Qed.

  Lemma naive_perform_ok n i o :
    0 < n -> length i = n -> length o = n ->
    naive_perform (naive_twiddles n) i o = Ok (naive_fun n i).
  Proof.
    intros Hn Hi Ho. unfold naive_perform.
    match goal with |- for_range ?lo ?hi ?body ?s = _ =>
      destruct (for_range_inv (fun k out => length out = n /\
        forall k', k' < k -> nth k' out nzero = nth k' (naive_fun n i) nzero) lo hi body s)
        as (o' & E & L & R) end.
    - lia.
    - split; auto. lia.
    - intros k out Hk (L & R). rewrite naive_inner by lia. simpl.
      rewrite set_ok by lia. eexists. split; [reflexivity|]. rewrite upd_length. split; auto.
      intros k' Hk'. destruct (Nat.eq_dec k' k) as [->|].
      + rewrite nth_upd_eq by lia. unfold naive_fun. now rewrite nth_map_seq by lia.
      + rewrite nth_upd_neq by auto. apply R. lia.
    - rewrite E. f_equal. apply (nth_list_ext nzero).
      + unfold naive_fun. rewrite map_length, seq_length. auto.
      + intros. apply R. lia.
  Qed.

  Lemma naive_ok n : dht_ok (dht_naive n) (naive_fun n) /\ dht_strict (dht_naive n).
  Proof.
    unfold dht_naive. rewrite naive_twiddles_length. apply boilerplate_dht_oop_ok.
    - intros. unfold naive_fun. now rewrite map_length, seq_length.
    - intros. now apply naive_perform_ok.
  Qed.
End NaiveContract.
