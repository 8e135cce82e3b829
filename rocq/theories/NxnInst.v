(** * Each MixedRadixNxn meets the contract, for every number type *)
From Verif Require Export NxnProof.

Definition res_get {A} (d : A) (r : res A) : A := match r with Ok a => a | _ => d end.

Lemma chunks_go_flat_map {A T} (f : A -> list T) n (l : list A) fuel :
  0 < n -> (forall a, In a l -> length (f a) = n) -> length l <= fuel ->
  chunks_go fuel n (flat_map f l) = map f l.
Proof.
  intros Hn. revert fuel. induction l as [|a l IH]; intros fuel Hf Hl; simpl.
  - destruct fuel; simpl; auto. destruct n; [lia|reflexivity].
  - destruct fuel as [|fuel]; [simpl in Hl; lia|]. simpl.
    assert (E : length (f a) = n) by (apply Hf; now left).
    rewrite app_length, E. destruct (Nat.leb_spec n (n + length (flat_map f l))); [|lia].
    rewrite firstn_app_exact, skipn_app_exact by auto. f_equal. apply IH; [|simpl in Hl; lia].
    intros; apply Hf; now right.
Qed.

Lemma chunks_exact_flat_map {A T} (f : A -> list T) n (l : list A) :
  0 < n -> (forall a, In a l -> length (f a) = n) ->
  chunks_exact n (flat_map f l) = Ok (map f l).
Proof.
  intros Hn Hf. unfold chunks_exact. destruct (Nat.eqb_spec n 0); [lia|]. f_equal.
  apply chunks_go_flat_map; auto. rewrite (flat_map_length_const _ _ n) by auto. nia.
Qed.

Ltac list_of n x Hx :=
  match n with
  | 0 => destruct x; [|simpl in Hx; discriminate]
  | S ?m => destruct x as [|? x]; [simpl in Hx; discriminate|list_of m x Hx]
  end.

Section Instances.
  Context {T : Type} `{Num T}.
  Let pairs := (list T * list T)%type.

  (** the pure column-pair functions *)
  Definition radix2_pairp (tw : cplx T) (f r : list T) : pairs := res_get ([], []) (radix2_pair tw f r).
  Definition radix3_pairp (tw : cplx T) (f r : list T) : pairs :=
    res_get ([], []) (radix3_pair bf3_new tw f r).
  Definition radix4_pairp (tw : list (cplx T)) (f r : list T) : pairs :=
    res_get ([], []) (radix4_pair tw f r).
  Definition radix5_pairp (tw : list (cplx T)) (f r : list T) : pairs :=
    res_get ([], []) (radix5_pair bf5_new tw f r).
  Definition radix6_pairp (tw : list (cplx T)) (f r : list T) : pairs :=
    res_get ([], []) (radix6_pair bf3_new tw f r).

  Ltac pair_tac n :=
    let f := fresh "f" in let r := fresh "r" in let Hf := fresh in let Hr := fresh in
    intros f r Hf Hr; list_of n f Hf; list_of n r Hr; repeat split.

  Lemma radix2_pair_ok tw f r : length f = 2 -> length r = 2 ->
    radix2_pair tw f r = Ok (radix2_pairp tw f r) /\
    length (fst (radix2_pairp tw f r)) = 2 /\ length (snd (radix2_pairp tw f r)) = 2.
  Proof. revert f r. pair_tac 2. Qed.
  Lemma radix3_pair_ok tw f r : length f = 3 -> length r = 3 ->
    radix3_pair bf3_new tw f r = Ok (radix3_pairp tw f r) /\
    length (fst (radix3_pairp tw f r)) = 3 /\ length (snd (radix3_pairp tw f r)) = 3.
  Proof. revert f r. pair_tac 3. Qed.
  Lemma radix4_pair_ok tw f r : 2 <= length tw -> length f = 4 -> length r = 4 ->
    radix4_pair tw f r = Ok (radix4_pairp tw f r) /\
    length (fst (radix4_pairp tw f r)) = 4 /\ length (snd (radix4_pairp tw f r)) = 4.
  Proof.
    intros Ht. destruct tw as [|t0 [|t1 tw]]; simpl in Ht; try lia. revert f r. pair_tac 4.
  Qed.
  Lemma radix5_pair_ok tw f r : 2 <= length tw -> length f = 5 -> length r = 5 ->
    radix5_pair bf5_new tw f r = Ok (radix5_pairp tw f r) /\
    length (fst (radix5_pairp tw f r)) = 5 /\ length (snd (radix5_pairp tw f r)) = 5.
  Proof.
    intros Ht. destruct tw as [|t0 [|t1 tw]]; simpl in Ht; try lia. revert f r. pair_tac 5.
  Qed.
  Lemma radix6_pair_ok tw f r : 3 <= length tw -> length f = 6 -> length r = 6 ->
    radix6_pair bf3_new tw f r = Ok (radix6_pairp tw f r) /\
    length (fst (radix6_pairp tw f r)) = 6 /\ length (snd (radix6_pairp tw f r)) = 6.
  Proof.
    intros Ht. destruct tw as [|t0 [|t1 [|t2 tw]]]; simpl in Ht; try lia. revert f r. pair_tac 6.
  Qed.

  (** the twiddles of column c *)
  Definition tw2 (h c : nat) : cplx T := compute_dft_twiddle_inverse c (2 * h).
  Definition tw8 (w h r c : nat) : cplx T :=
    cscale (compute_dft_twiddle_inverse (r * c * 8 + w * h) (w * h * 8)) nroot_half.
  Definition tw3 (h c : nat) : cplx T := tw8 3 h 1 c.
  Definition tw4 (h c : nat) : list (cplx T) :=
    [compute_dft_twiddle_inverse (1 * c) (4 * h); compute_dft_twiddle_inverse (2 * c) (4 * h)].
  Definition tw5 (h c : nat) : list (cplx T) := [tw8 5 h 1 c; tw8 5 h 2 c].
  Definition tw6 (h c : nat) : list (cplx T) := [tw8 6 h 1 c; tw8 6 h 2 c; tw8 6 h 3 c].

  Definition radix2_cols h := cols_fun 2 h (bf_fun bf2_contig) radix2_pairp (tw2 h).
  Definition radix3_cols h := cols_fun 3 h (bf_fun (bf3_contig bf3_new)) radix3_pairp (tw3 h).
  Definition radix4_cols h := cols_fun 4 h (bf_fun bf4_contig) radix4_pairp (tw4 h).
  Definition radix5_cols h := cols_fun 5 h (bf_fun (bf5_contig bf5_new)) radix5_pairp (tw5 h).
  Definition radix6_cols h := cols_fun 6 h (bf_fun (bf6_contig bf3_new)) radix6_pairp (tw6 h).

  Definition radix2_fun (d : Dht T) fi := nxn_fun 2 d fi (radix2_cols (dht_len d)).
  Definition radix3_fun (d : Dht T) fi := nxn_fun 3 d fi (radix3_cols (dht_len d)).
  Definition radix4_fun (d : Dht T) fi := nxn_fun 4 d fi (radix4_cols (dht_len d)).
  Definition radix5_fun (d : Dht T) fi := nxn_fun 5 d fi (radix5_cols (dht_len d)).
  Definition radix6_fun (d : Dht T) fi := nxn_fun 6 d fi (radix6_cols (dht_len d)).

  Lemma cols_fun_ext {A} k h bfp (pairp : A -> list T -> list T -> pairs) (t1 t2 : nat -> A) buf :
    (forall c, 0 < c -> 2 * c <= h -> t1 c = t2 c) ->
    cols_fun k h bfp pairp t1 buf = cols_fun k h bfp pairp t2 buf.
  Proof.
    intros E. unfold cols_fun. apply tab_ext. intros r c Hr Hc. unfold cols_cell.
    destruct (Nat.eqb_spec c 0); auto. destruct (Nat.ltb_spec (2 * c) h).
    - now rewrite E by lia.
    - now rewrite (E (h - c)) by lia.
  Qed.

  Lemma kernel_array n (contig : raw T -> res (raw T)) : kernel_ok n contig -> forall x, length x = n ->
    run_alias contig x = Ok (bf_fun contig x) /\ length (bf_fun contig x) = n.
  Proof. intros K x Hx. split; [now apply (kernel_run_alias n)|now apply K]. Qed.

  Lemma half_bound h c : 2 * c <= h -> c - 1 < h / 2 \/ c = 0.
  Proof.
    intros. destruct c; auto. left. assert (S c <= h / 2) by (apply Nat.div_le_lower_bound; lia). lia.
  Qed.

  Lemma radix2_apply_ok h x : 0 < h -> length x = 2 * h ->
    radix2_apply h (radix2_twiddles h) x = Ok (radix2_cols h x).
  Proof.
    intros Hh Hx. unfold radix2_apply.
    rewrite (columns_apply_ok 2 h bf2_array (bf_fun bf2_contig) radix2_pair radix2_pairp
               (kernel_array 2 _ bf2_kernel) (fun _ => True)
               (fun tw f r _ => radix2_pair_ok tw f r) (tw2 h 0)); auto.
    - f_equal. apply cols_fun_ext. intros c Hc0 Hc. destruct (half_bound h c Hc); [|lia].
      unfold radix2_twiddles. rewrite nth_map_seq by auto. unfold tw2. f_equal. lia.
    - unfold radix2_twiddles. now rewrite map_length, seq_length.
  Qed.

  Lemma radix3_apply_ok h x : 0 < h -> length x = 3 * h ->
    radix3_apply bf3_new h (radix3_twiddles h) x = Ok (radix3_cols h x).
  Proof.
    intros Hh Hx. unfold radix3_apply.
    rewrite (columns_apply_ok 3 h (bf3_array bf3_new) (bf_fun (bf3_contig bf3_new)) _ radix3_pairp
               (kernel_array 3 _ (bf3_kernel _)) (fun _ => True)
               (fun tw f r _ => radix3_pair_ok tw f r) (tw3 h 0)); auto.
    - f_equal. apply cols_fun_ext. intros c Hc0 Hc. destruct (half_bound h c Hc); [|lia].
      unfold radix3_twiddles. rewrite nth_map_seq by auto. unfold tw3, tw8.
      do 2 f_equal. lia.
    - unfold radix3_twiddles. now rewrite map_length, seq_length.
  Qed.

  Lemma radix4_apply_ok h x : 0 < h -> length x = 4 * h ->
    radix4_apply h (radix4xn_twiddles h) x = Ok (radix4_cols h x).
  Proof.
    intros Hh Hx. unfold radix4_apply, radix4xn_twiddles.
    rewrite chunks_exact_flat_map by auto. cbn [bind].
    rewrite (columns_apply_ok 4 h bf4_array (bf_fun bf4_contig) radix4_pair radix4_pairp
               (kernel_array 4 _ bf4_kernel) (fun tw => 2 <= length tw)
               radix4_pair_ok (tw4 h 0)); auto.
    - f_equal. apply cols_fun_ext. intros c Hc0 Hc. destruct (half_bound h c Hc); [|lia].
      rewrite nth_map_seq by auto. unfold tw4.
      replace (1 + (c - 1)) with c by lia. reflexivity.
    - now rewrite map_length, seq_length.
    - intros a Ha. apply in_map_iff in Ha as (c & <- & _). simpl. lia.
  Qed.

  Lemma radix5_apply_ok h x : 0 < h -> length x = 5 * h ->
    radix5_apply bf5_new h (radix5_twiddles h) x = Ok (radix5_cols h x).
  Proof.
    intros Hh Hx. unfold radix5_apply, radix5_twiddles.
    rewrite chunks_exact_flat_map by auto. cbn [bind].
    rewrite (columns_apply_ok 5 h (bf5_array bf5_new) (bf_fun (bf5_contig bf5_new)) _ radix5_pairp
               (kernel_array 5 _ (bf5_kernel _)) (fun tw => 2 <= length tw)
               radix5_pair_ok (tw5 h 0)); auto.
    - f_equal. apply cols_fun_ext. intros c Hc0 Hc. destruct (half_bound h c Hc); [|lia].
      rewrite nth_map_seq by auto. unfold tw5, tw8.
      replace (1 + (c - 1)) with c by lia. repeat (f_equal; try lia).
    - now rewrite map_length, seq_length.
    - intros a Ha. apply in_map_iff in Ha as (c & <- & _). simpl. lia.
  Qed.

  Lemma radix6_apply_ok h x : 0 < h -> length x = 6 * h ->
    radix6_apply bf3_new h (radix6_twiddles h) x = Ok (radix6_cols h x).
  Proof.
    intros Hh Hx. unfold radix6_apply, radix6_twiddles.
    rewrite chunks_exact_flat_map by auto. cbn [bind].
    rewrite (columns_apply_ok 6 h (bf6_array bf3_new) (bf_fun (bf6_contig bf3_new)) _ radix6_pairp
               (kernel_array 6 _ (bf6_kernel _)) (fun tw => 3 <= length tw)
               radix6_pair_ok (tw6 h 0)); auto.
    - f_equal. apply cols_fun_ext. intros c Hc0 Hc. destruct (half_bound h c Hc); [|lia].
      rewrite nth_map_seq by auto. unfold tw6, tw8.
      replace (1 + (c - 1)) with c by lia. reflexivity.
    - now rewrite map_length, seq_length.
    - intros a Ha. apply in_map_iff in Ha as (c & <- & _). simpl. lia.
  Qed.

  (** what an inner transform must satisfy to be usable below a width-k MixedRadixNxn *)
  Definition fits (k : nat) (d : Dht T) : Prop :=
    dht_inplace_scratch d <= k * dht_len d /\ dht_oop_scratch d = 0.

  Lemma mixed_radix_2xn_ok d fi : dht_ok d fi -> fits 2 d ->
    dht_ok (mixed_radix_2xn d) (radix2_fun d fi) /\ dht_strict (mixed_radix_2xn d).
  Proof.
    intros Hd [F1 F2]. apply nxn_ok; auto; [intros; apply radix2_apply_ok; auto|intros; apply cols_fun_length].
  Qed.
  Lemma mixed_radix_3xn_ok d fi : dht_ok d fi -> fits 3 d ->
    dht_ok (mixed_radix_3xn d) (radix3_fun d fi) /\ dht_strict (mixed_radix_3xn d).
  Proof.
    intros Hd [F1 F2]. apply nxn_ok; auto; [intros; apply radix3_apply_ok; auto|intros; apply cols_fun_length].
  Qed.
  Lemma mixed_radix_4xn_ok d fi : dht_ok d fi -> fits 4 d ->
    dht_ok (mixed_radix_4xn d) (radix4_fun d fi) /\ dht_strict (mixed_radix_4xn d).
  Proof.
    intros Hd [F1 F2]. apply nxn_ok; auto; [intros; apply radix4_apply_ok; auto|intros; apply cols_fun_length].
  Qed.
  Lemma mixed_radix_5xn_ok d fi : dht_ok d fi -> fits 5 d ->
    dht_ok (mixed_radix_5xn d) (radix5_fun d fi) /\ dht_strict (mixed_radix_5xn d).
  Proof.
    intros Hd [F1 F2]. apply nxn_ok; auto; [lia|intros; apply radix5_apply_ok; auto|intros; apply cols_fun_length].
  Qed.
  Lemma mixed_radix_6xn_ok d fi : dht_ok d fi -> fits 6 d ->
    dht_ok (mixed_radix_6xn d) (radix6_fun d fi) /\ dht_strict (mixed_radix_6xn d).
  Proof.
    intros Hd [F1 F2]. apply nxn_ok; auto; [lia|intros; apply radix6_apply_ok; auto|intros; apply cols_fun_length].
  Qed.
End Instances.
