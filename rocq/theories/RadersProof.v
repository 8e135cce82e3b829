(** * Rader's algorithm: the two methods and the constructor's tables, for every number type *)
From Verif Require Export NxnInst Raders.
From Coq Require Import Lia.

(** [r^j mod p] *)
Definition pw (p r j : nat) : nat := r ^ j mod p.

(** [r] generates the non-zero residues mod [p] *)
Definition generates (p r : nat) : Prop :=
  forall k, 1 <= k < p -> exists j, j < p - 1 /\ pw p r j = k.
(** its first p-1 powers are distinct and non-zero *)
Definition distinct_powers (p r : nat) : Prop :=
  (forall j, 1 <= pw p r j < p) /\
  (forall i j, i < p - 1 -> j < p - 1 -> pw p r i = pw p r j -> i = j).

Lemma pw_S p r j : 0 < p -> pw p r (S j) = (pw p r j * r) mod p.
Proof.
  intros. unfold pw. rewrite Nat.pow_succ_r', Nat.mul_comm, Nat.mul_mod_idemp_l; lia.
Qed.

Lemma pw_0 p r : 1 < p -> pw p r 0 = 1.
Proof. intros. unfold pw. simpl. now apply Nat.mod_small. Qed.

Section RadersPure.
  Context {T : Type} {NT : Num T}.
  Variables (p root root_inv : nat).
  Let n := p - 1.

  (** x reordered by the powers of the root *)
  Definition raders_gather (x : list T) : list T :=
    map (fun j => nth (pw p root j) x nzero) (seq 0 n).
  (** the products with the twiddles; [x0] is added to the first *)
  Definition raders_mul (tws : list (cplx T)) (x0 : T) (A : list T) : list T :=
    map (fun i =>
      let a j := nth j A nzero in
      let t j := nth j tws (Cplx nzero nzero) in
      if i =? 0 then a 0 *! re (t 0) +! x0
      else if 2 * i <? n then re (t i) *! a i +! im (t i) *! a (n - i)
      else if 2 * i =? n then a i *! re (t i)
      else re (t (n - i)) *! a i -! im (t (n - i)) *! a (n - i)) (seq 0 n).
  (** position of [k] among the powers of the inverse root *)
  Definition raders_log (k : nat) : nat :=
    match find (fun j => pw p root_inv j =? k) (seq 0 n) with Some j => j | None => 0 end.
  Definition raders_fun (tws : list (cplx T)) (fi : list T -> list T) (x : list T) : list T :=
    let A := fi (raders_gather x) in
    let B := fi (raders_mul tws (nth 0 x nzero) A) in
    (nth 0 x nzero +! nth 0 A nzero) :: map (fun k => nth (raders_log k) B nzero) (seq 1 n).

  (** the tables of the constructor *)
  Definition raders_input : list T :=
    map (fun j => compute_dht_twiddle (pw p root_inv j) p *! nrecip n) (seq 0 n).
  Definition raders_table (B : list T) : list (cplx T) :=
    map (fun i =>
      let b j := nth j B nzero in
      if i =? 0 then Cplx (b 0) nzero
      else if 2 * i <? n then Cplx ((b i +! b (n - i)) *! nhalf) ((b i -! b (n - i)) *! nhalf)
      else Cplx (b i) nzero) (seq 0 (n / 2 + 1)).
End RadersPure.

Section RadersLoops.
  Context {T : Type} {NT : Num T}.
  Variables (m : profile) (p root root_inv : nat).
  Let n := p - 1.
  Hypothesis p_ge : 3 <= p.
  Hypothesis n_even : n = 2 * (n / 2).
  Hypothesis p_small : (N.of_nat p <= 4294967296)%N.
  Hypothesis root_lt : root < p.
  Hypothesis inv_lt : root_inv < p.
  Hypothesis root_powers : distinct_powers p root.
  Hypothesis inv_powers : distinct_powers p root_inv.
  Hypothesis inv_gen : generates p root_inv.

  Lemma pw_lt r j : pw p r j < p.
  Proof. apply Nat.mod_upper_bound. lia. Qed.

  Lemma mul_mod_pw r j : r < p -> mul_mod m (pw p r j) r p = Ok (pw p r (S j)).
  Proof.
    intros Hr. unfold mul_mod, u64. pose proof (pw_lt r j) as Hj.
    destruct (N.ltb_spec (N.of_nat (pw p r j) * N.of_nat r) two64) as [Hl|Hl].
    - cbn [bind]. f_equal. rewrite pw_S by lia.
      rewrite <- Nat2N.inj_mul. apply Nat2N.inj. rewrite N2Nat.id, Nat2N.inj_mod. reflexivity.
    - exfalso. unfold two64 in Hl.
      assert (N.of_nat (pw p r j) < 4294967296)%N by lia. assert (N.of_nat r < 4294967296)%N by lia. nia.
  Qed.

  Lemma log_spec k : 1 <= k < p -> raders_log p root_inv k < n /\ pw p root_inv (raders_log p root_inv k) = k.
  Proof.
    intros Hk. unfold raders_log. destruct (inv_gen k Hk) as (j & Hj & Ej).
    destruct (find _ _) as [j'|] eqn:E.
    - apply find_some in E as [Hin E]. apply in_seq in Hin. apply Nat.eqb_eq in E. split; auto. unfold n. lia.
    - exfalso. assert (F := find_none _ _ E j ltac:(apply in_seq; lia)). cbv beta in F.
      apply Nat.eqb_neq in F. auto.
  Qed.

  Lemma log_pw j : j < n -> raders_log p root_inv (pw p root_inv j) = j.
  Proof.
    intros Hj. destruct inv_powers as [H1 H2]. destruct (log_spec (pw p root_inv j)) as [L E]; auto.
  Qed.

  (** the reordering loop *)
  Lemma gather_ok x0 (xs out : list T) :
    length xs = n -> length out = n ->
    for_range 0 (length out) (fun j '(out, input_index) =>
          k <- usub input_index 1 ;;
          e <- idx xs k ;;
          out <- set out j e ;;
          input_index <- mul_mod m input_index root p ;;
          Ok (out, input_index)) (out, 1)
    = Ok (raders_gather p root (x0 :: xs), pw p root n).
  Proof.
    intros Lx Lo.
    match goal with |- for_range ?lo ?hi ?body ?s = _ =>
      destruct (for_range_inv (fun j '(o, i) => length o = n /\ i = pw p root j /\
        forall j', j' < j -> nth j' o nzero = nth (pw p root j') (x0 :: xs) nzero) lo hi body s)
        as ([o' i'] & E & L & Ei & R) end.
    - lia.
    - repeat split; auto; [now rewrite pw_0 by lia|lia].
    - intros j [o i] Hj (L & -> & R). destruct root_powers as [P _]. specialize (P j).
      unfold usub. destruct (Nat.leb_spec 1 (pw p root j)); [|lia]. cbn [bind].
      rewrite (idx_ok nzero) by (unfold n in Lx; lia). cbn [bind]. rewrite set_ok by lia. cbn [bind].
      rewrite mul_mod_pw by auto. cbn [bind]. eexists. split; [reflexivity|]. cbv beta iota.
      rewrite upd_length. repeat split; auto.
      intros j' Hj'. destruct (Nat.eq_dec j' j) as [->|].
      + rewrite nth_upd_eq by lia. destruct (pw p root j); [lia|]. simpl nth. f_equal. lia.
      + rewrite nth_upd_neq by auto. apply R. lia.
    - rewrite E. f_equal. rewrite Lo in *. subst i'. f_equal. unfold raders_gather. fold n.
      apply (nth_list_ext nzero); [now rewrite map_length, seq_length|].
      intros j Hj. rewrite nth_map_seq by lia. apply R. lia.
  Qed.

  Lemma scatter_ok (B out : list T) :
    length B = n -> length out = n ->
    for_each B (fun e '(out, output_index) =>
          k <- usub output_index 1 ;;
          out <- set out k e ;;
          output_index <- mul_mod m output_index root_inv p ;;
          Ok (out, output_index)) (out, 1)
    = Ok (map (fun k => nth (raders_log p root_inv k) B nzero) (seq 1 n), pw p root_inv n).
  Proof.
    intros LB Lo. destruct inv_powers as [P1 P2].
    match goal with |- for_each ?l ?body ?s = _ =>
      destruct (for_each_inv (fun j '(o, i) => length o = n /\ i = pw p root_inv j /\
        forall j', j' < j -> nth (pw p root_inv j' - 1) o nzero = nth j' B nzero) l body s nzero)
        as ([o' i'] & E & L & Ei & R) end.
    - repeat split; auto; [now rewrite pw_0 by lia|lia].
    - intros j [o i] Hj (L & -> & R). pose proof (P1 j) as Pj.
      unfold usub. destruct (Nat.leb_spec 1 (pw p root_inv j)); [|lia]. cbn [bind].
      rewrite set_ok by (unfold n in L; lia). cbn [bind].
      rewrite mul_mod_pw by auto. cbn [bind]. eexists. split; [reflexivity|]. cbv beta iota.
      rewrite upd_length. repeat split; auto.
      intros j' Hj'. destruct (Nat.eq_dec j' j) as [->|].
      + rewrite nth_upd_eq; auto. unfold n in L; lia.
      + rewrite nth_upd_neq; [apply R; lia|]. intros Eq. pose proof (P1 j').
        assert (pw p root_inv j' = pw p root_inv j) as Eq' by lia.
        apply P2 in Eq'; unfold n in LB; lia.
    - rewrite E. f_equal. rewrite LB in *. subst i'. f_equal.
      apply (nth_list_ext nzero); [now rewrite map_length, seq_length|].
      intros k Hk. rewrite nth_map_seq by lia.
      destruct (log_spec (1 + k)) as [L1 L2]; [unfold n in L; lia|].
      rewrite <- R by auto. rewrite L2. f_equal. lia.
  Qed.

  Ltac dec :=
    repeat match goal with
    | |- context [Nat.eqb ?a ?b] => destruct (Nat.eqb_spec a b); try lia
    | |- context [Nat.ltb ?a ?b] => destruct (Nat.ltb_spec a b); try lia
    end.

  (** the pointwise product, in place *)
  Lemma mul_inplace_ok (tws : list (cplx T)) x0 (A : list T) :
    length A = n -> length tws = n / 2 + 1 ->
    (v0 <- idx A 0 ;;
     t0 <- idx tws 0 ;;
     inner <- set A 0 (v0 *! re t0) ;;
     inner <- for_range 1 (length inner / 2) (fun i inner' =>
          i_rev <- usub (length inner) i ;;
          input_fwd <- idx inner' i ;;
          input_rev <- idx inner' i_rev ;;
          twiddle <- idx tws i ;;
          inner' <- set inner' i (re twiddle *! input_fwd +! im twiddle *! input_rev) ;;
          set inner' i_rev (re twiddle *! input_rev -! im twiddle *! input_fwd)) inner ;;
     inner <- (if length A mod 2 =? 0 then
                  v <- idx inner (length A / 2) ;;
                  t <- idx tws (length A / 2) ;;
                  set inner (length A / 2) (v *! re t)
                else Ok inner) ;;
     v0 <- idx inner 0 ;;
     set inner 0 (v0 +! x0)) = Ok (raders_mul p tws x0 A).
  Proof.
    intros LA Lt. assert (Hn : 2 <= n) by (unfold n; lia).
    set (t j := nth j tws (Cplx nzero nzero)). set (a j := nth j A nzero).
    rewrite (idx_ok nzero) by lia. rewrite (idx_ok (Cplx nzero nzero)) by lia. cbn [bind].
    rewrite set_ok by lia. cbn [bind]. rewrite !upd_length, LA.
    fold (t 0) (a 0).
    match goal with |- bind (for_range ?lo ?hi ?body ?s) _ = _ =>
      destruct (for_range_inv (fun i inner => length inner = n /\
        forall k, k < n -> nth k inner nzero =
          if k =? 0 then a 0 *! re (t 0)
          else if 2 * k <? n then if k <? i then re (t k) *! a k +! im (t k) *! a (n - k) else a k
          else if 2 * k =? n then a k
          else if n - k <? i then re (t (n - k)) *! a k -! im (t (n - k)) *! a (n - k) else a k)
        lo hi body s) as (inner & E & L & R) end.
    - lia.
    - rewrite upd_length. split; auto. intros k Hk. destruct (Nat.eqb_spec k 0) as [->|].
      + now rewrite nth_upd_eq by lia.
      + rewrite nth_upd_neq by auto. dec; reflexivity.
    - intros i inner Hi (L & R). unfold usub. destruct (Nat.leb_spec i n); [|lia]. cbn [bind].
      rewrite !(idx_ok nzero) by lia. rewrite (idx_ok (Cplx nzero nzero)) by lia. cbn [bind].
      fold (t i). rewrite set_ok by lia. cbn [bind]. rewrite set_ok by (rewrite upd_length; lia).
      eexists. split; [reflexivity|]. rewrite !upd_length. split; auto.
      assert (E1 : nth i inner nzero = a i) by (rewrite R by lia; dec; reflexivity).
      assert (E2 : nth (n - i) inner nzero = a (n - i)) by (rewrite R by lia; dec; reflexivity).
      rewrite E1, E2. intros k Hk.
      destruct (Nat.eq_dec k (n - i)) as [->|]; [rewrite nth_upd_eq by (rewrite upd_length; lia)|].
      + dec. replace (n - (n - i)) with i by lia. reflexivity.
      + rewrite nth_upd_neq by auto. destruct (Nat.eq_dec k i) as [->|]; [rewrite nth_upd_eq by lia|].
        * dec. reflexivity.
        * rewrite nth_upd_neq by auto. rewrite R by auto. dec; auto.
    - rewrite E. cbn [bind]. clear E.
      assert (Em : n mod 2 = 0) by (rewrite n_even, Nat.mul_comm; apply Nat.mod_mul; lia).
      rewrite Em. simpl (0 =? 0). cbn iota.
      rewrite (idx_ok nzero) by lia. rewrite (idx_ok (Cplx nzero nzero)) by lia. cbn [bind].
      rewrite set_ok by lia. cbn [bind].
      rewrite (idx_ok nzero) by (rewrite upd_length; lia). cbn [bind].
      rewrite set_ok by (rewrite upd_length; lia). f_equal.
      unfold raders_mul. fold n. apply (nth_list_ext nzero).
      + rewrite !upd_length, map_length, seq_length. auto.
      + intros k Hk. rewrite !upd_length in Hk. rewrite nth_map_seq by lia. simpl plus.
        fold (t (n / 2)).
        destruct (Nat.eqb_spec k 0) as [->|].
        * rewrite nth_upd_eq by (rewrite upd_length; lia). rewrite nth_upd_neq by lia.
          rewrite R by lia. reflexivity.
        * rewrite nth_upd_neq by auto. destruct (Nat.eq_dec k (n / 2)) as [->|].
          -- rewrite nth_upd_eq by lia. rewrite R by lia. dec. reflexivity.
          -- rewrite nth_upd_neq by auto. rewrite R by lia. dec; reflexivity.
  Qed.

  (** the pointwise product, out of place: from [A] into [inp] *)
  Lemma mul_oop_ok (tws : list (cplx T)) x0 (A inp : list T) :
    length A = n -> length inp = n -> length tws = n / 2 + 1 ->
    (v0 <- idx A 0 ;;
     t0 <- idx tws 0 ;;
     inp <- set inp 0 (v0 *! re t0) ;;
     inp <- for_range 1 (length A / 2) (fun i inp =>
          i_rev <- usub (length A) i ;;
          input_fwd <- idx A i ;;
          input_rev <- idx A i_rev ;;
          twiddle <- idx tws i ;;
          inp <- set inp i (re twiddle *! input_fwd +! im twiddle *! input_rev) ;;
          set inp i_rev (re twiddle *! input_rev -! im twiddle *! input_fwd)) inp ;;
     inp <- (if length inp mod 2 =? 0 then
                  v <- idx A (length inp / 2) ;;
                  t <- idx tws (length inp / 2) ;;
                  set inp (length inp / 2) (v *! re t)
                else Ok inp) ;;
     v0 <- idx inp 0 ;;
     set inp 0 (v0 +! x0)) = Ok (raders_mul p tws x0 A).
  Proof.
    intros LA Li Lt. assert (Hn : 2 <= n) by (unfold n; lia).
    set (t j := nth j tws (Cplx nzero nzero)). set (a j := nth j A nzero).
    rewrite (idx_ok nzero) by lia. rewrite (idx_ok (Cplx nzero nzero)) by lia. cbn [bind].
    rewrite set_ok by lia. cbn [bind]. rewrite !LA.
    fold (t 0) (a 0).
    match goal with |- bind (for_range ?lo ?hi ?body ?s) _ = _ =>
      destruct (for_range_inv (fun i inner => length inner = n /\
        forall k, k < n -> (k < i \/ n - k < i) -> nth k inner nzero =
          if k =? 0 then a 0 *! re (t 0)
          else if 2 * k <? n then re (t k) *! a k +! im (t k) *! a (n - k)
          else re (t (n - k)) *! a k -! im (t (n - k)) *! a (n - k))
        lo hi body s) as (inner & E & L & R) end.
    - lia.
    - rewrite upd_length. split; auto. intros k Hk Hk'. assert (k = 0) by lia. subst k.
      now rewrite nth_upd_eq by lia.
    - intros i inner Hi (L & R). unfold usub. destruct (Nat.leb_spec i n); [|lia]. cbn [bind].
      rewrite !(idx_ok nzero) by lia. rewrite (idx_ok (Cplx nzero nzero)) by lia. cbn [bind].
      fold (t i) (a i) (a (n - i)). rewrite set_ok by lia. cbn [bind]. rewrite set_ok by (rewrite upd_length; lia).
      eexists. split; [reflexivity|]. rewrite !upd_length. split; auto.
      intros k Hk Hk'.
      destruct (Nat.eq_dec k (n - i)) as [->|]; [rewrite nth_upd_eq by (rewrite upd_length; lia)|].
      + dec. replace (n - (n - i)) with i by lia. reflexivity.
      + rewrite nth_upd_neq by auto. destruct (Nat.eq_dec k i) as [->|]; [rewrite nth_upd_eq by lia|].
        * dec. reflexivity.
        * rewrite nth_upd_neq by auto. apply R; lia.
    - rewrite E. cbn [bind]. clear E. rewrite !L.
      assert (Em : n mod 2 = 0) by (rewrite n_even, Nat.mul_comm; apply Nat.mod_mul; lia).
      rewrite Em. simpl (0 =? 0). cbn iota.
      rewrite (idx_ok nzero) by lia. rewrite (idx_ok (Cplx nzero nzero)) by lia. cbn [bind].
      rewrite set_ok by lia. cbn [bind].
      rewrite (idx_ok nzero) by (rewrite upd_length; lia). cbn [bind].
      rewrite set_ok by (rewrite upd_length; lia). f_equal.
      unfold raders_mul. fold n. apply (nth_list_ext nzero).
      + rewrite !upd_length, map_length, seq_length. auto.
      + intros k Hk. rewrite !upd_length in Hk. rewrite nth_map_seq by lia. simpl plus.
        fold (t (n / 2)) (a (n / 2)).
        destruct (Nat.eqb_spec k 0) as [->|].
        * rewrite nth_upd_eq by (rewrite upd_length; lia). rewrite nth_upd_neq by lia.
          rewrite R by lia. reflexivity.
        * rewrite nth_upd_neq by auto. destruct (Nat.eq_dec k (n / 2)) as [->|].
          -- rewrite nth_upd_eq by lia. dec. reflexivity.
          -- rewrite nth_upd_neq by auto. rewrite R by lia. dec; reflexivity.
  Qed.

  (** the tables of the constructor *)
  Lemma raders_dht_input_ok : raders_dht_input m p root_inv = Ok (raders_input (T := T) p root_inv).
  Proof.
    unfold raders_dht_input. fold n.
    match goal with |- bind (for_range ?lo ?hi ?body ?s) _ = _ =>
      destruct (for_range_inv (fun j '(o, i) => length o = n /\ i = pw p root_inv j /\
        forall j', j' < j -> nth j' o nzero = compute_dht_twiddle (pw p root_inv j') p *! nrecip n) lo hi body s)
        as ([o' i'] & E & L & Ei & R) end.
    - lia.
    - rewrite repeat_length. repeat split; auto; [now rewrite pw_0 by lia|lia].
    - intros j [o i] Hj (L & -> & R). cbv zeta. rewrite set_ok by lia. cbn [bind].
      rewrite mul_mod_pw by auto. cbn [bind]. eexists. split; [reflexivity|]. cbv beta iota.
      rewrite upd_length. repeat split; auto.
      intros j' Hj'. destruct (Nat.eq_dec j' j) as [->|].
      + now rewrite nth_upd_eq by lia.
      + rewrite nth_upd_neq by auto. apply R. lia.
    - rewrite E. cbn [bind]. f_equal. unfold raders_input. fold n.
      apply (nth_list_ext nzero); [now rewrite map_length, seq_length|].
      intros j Hj. rewrite nth_map_seq by lia. apply R. lia.
  Qed.

  Lemma raders_twiddles_ok (B : list T) :
    length B = n -> raders_twiddles B = Ok (raders_table p B).
  Proof.
    intros LB. assert (Hn : 2 <= n) by (unfold n; lia). unfold raders_twiddles. cbv zeta. rewrite LB.
    rewrite (idx_ok nzero) by lia. cbn [bind]. rewrite set_ok by (rewrite repeat_length; lia). cbn [bind].
    set (b j := nth j B nzero). fold (b 0).
    match goal with |- bind (for_range ?lo ?hi ?body ?s) _ = _ =>
      destruct (for_range_inv (fun i o => length o = n / 2 + 1 /\
        forall k, k < i -> nth k o (Cplx nzero nzero) =
          if k =? 0 then Cplx (b 0) nzero
          else Cplx ((b k +! b (n - k)) *! nhalf) ((b k -! b (n - k)) *! nhalf)) lo hi body s)
        as (o & E & L & R) end.
    - lia.
    - rewrite upd_length, repeat_length. split; auto. intros k Hk. assert (k = 0) by lia. subst k.
      rewrite nth_upd_eq by (rewrite repeat_length; lia). reflexivity.
    - intros i o Hi (L & R). unfold usub. destruct (Nat.leb_spec i n); [|lia]. cbn [bind].
      rewrite !(idx_ok nzero) by lia. cbn [bind]. fold (b i) (b (n - i)). rewrite set_ok by lia.
      eexists. split; [reflexivity|]. rewrite upd_length. split; auto.
      intros k Hk. destruct (Nat.eq_dec k i) as [->|].
      + rewrite nth_upd_eq by lia. dec. reflexivity.
      + rewrite nth_upd_neq by auto. apply R. lia.
    - rewrite E. cbn [bind]. rewrite (idx_ok nzero) by lia. cbn [bind]. fold (b (n / 2)).
      rewrite set_ok by lia. f_equal. unfold raders_table. fold n.
      apply (nth_list_ext (Cplx nzero nzero)).
      + now rewrite upd_length, map_length, seq_length.
      + intros k Hk. rewrite upd_length in Hk. rewrite nth_map_seq by lia. simpl plus.
        destruct (Nat.eq_dec k (n / 2)) as [->|].
        * rewrite nth_upd_eq by lia. dec. reflexivity.
        * rewrite nth_upd_neq by auto. rewrite R by lia. dec; reflexivity.
  Qed.

  (** the Dht instance *)
  Variables (d : Dht T) (fi : list T -> list T).
  Hypothesis d_ok : dht_ok d fi.
  Hypothesis d_len : dht_len d = n.

  Definition raders_inst (tws : list (cplx T)) : Dht T :=
    let extra := if dht_inplace_scratch d <=? n then 0 else dht_inplace_scratch d in
    boilerplate_dht p (n + extra) extra (raders_inplace m d p root root_inv tws)
                                        (raders_oop m d p root root_inv tws).

  Lemma raders_mul_length tws x0 (A : list T) : length (raders_mul p tws x0 A) = n.
  Proof. unfold raders_mul. now rewrite map_length, seq_length. Qed.
  Lemma raders_gather_length (x : list T) : length (raders_gather p root x) = n.
  Proof. unfold raders_gather. now rewrite map_length, seq_length. Qed.

  Lemma raders_inst_ok tws :
    length tws = n / 2 + 1 ->
    dht_ok (raders_inst tws) (raders_fun p root root_inv tws fi) /\ dht_strict (raders_inst tws).
  Proof.
    intros Lt. assert (Hn : 2 <= n) by (unfold n; lia).
    assert (Lfi : forall x, length x = n -> length (fi x) = n).
    { rewrite <- d_len. apply (ok_len _ _ d_ok). }
    unfold raders_inst. cbv zeta. apply boilerplate_dht_ok.
    - intros. unfold raders_fun. cbn [length]. rewrite map_length, seq_length. lia.
    - intros _ c scr Lc Ls. unfold raders_inplace.
      destruct c as [|x0 xs]; [simpl in Lc; lia|].
      assert (Lx : length xs = n) by (simpl in Lc; unfold n; lia).
      unfold usub at 1. destruct (Nat.leb_spec 1 p); [|lia]. cbn [bind]. fold n.
      rewrite split_at_ok by lia. cbn [bind].
      assert (Lf : length (firstn n scr) = n) by (rewrite firstn_length; lia).
      set (ex := skipn n scr).
      assert (Le : length ex = if dht_inplace_scratch d <=? n then 0 else dht_inplace_scratch d)
        by (unfold ex; rewrite skipn_length; lia).
      rewrite (gather_ok x0) by auto. cbn [bind].
      set (g := raders_gather p root (x0 :: xs)).
      assert (Lg : length g = n) by apply raders_gather_length.
      assert (Hrun : forall inner buf ex', length inner = n -> length buf = n -> length ex' = length ex ->
        exists buf' ex'', length buf' = n /\ length ex'' = length ex /\
        (if 0 <? length ex' then
          '(i, e) <- dht_process_with_scratch d inner ex' ;; Ok (i, buf, e)
        else
          '(i, b) <- dht_process_with_scratch d inner buf ;; Ok (i, b, ex')) = Ok (fi inner, buf', ex'')).
      { intros inner buf ex' L1 L2 L3. rewrite L3, Le.
        destruct (Nat.leb_spec (dht_inplace_scratch d) n).
        - simpl (0 <? 0). cbn iota.
          destruct (ok_inplace _ _ d_ok ltac:(lia) 1 inner buf) as (b' & E & Lb & _); try lia.
          rewrite E, d_len, map_chunks_one by (auto; lia). cbn [bind]. exists b', ex'. repeat split; auto; lia.
        - destruct (Nat.ltb_spec 0 (dht_inplace_scratch d)); [|lia].
          destruct (ok_inplace _ _ d_ok ltac:(lia) 1 inner ex') as (b' & E & Lb & _); try lia.
          rewrite E, d_len, map_chunks_one by (auto; lia). cbn [bind]. exists buf, b'. repeat split; auto; lia. }
      destruct (Hrun g xs ex) as (b1 & e1 & Lb1 & Le1 & E1); auto. rewrite E1. cbn [bind].
      set (A := fi g). assert (LA : length A = n) by (now apply Lfi).
      pose proof (mul_inplace_ok tws x0 A LA Lt) as M.
      rewrite (idx_ok nzero) in M |- * by lia. rewrite (idx_ok (Cplx nzero nzero)) in M |- * by lia.
      cbn [bind] in M |- *. rewrite set_ok in M |- * by lia. cbn [bind] in M |- *.
      rewrite !upd_length, LA in *.
      match type of M with bind ?X _ = _ => destruct X as [i1| | |]; try discriminate end.
      cbn [bind] in M |- *.
      match type of M with bind ?X _ = _ => destruct X as [i2| | |]; try discriminate end.
      cbn [bind] in M |- *.
      destruct (idx i2 0) as [v2| | |]; try discriminate. cbn [bind] in M |- *. rewrite M. cbn [bind].
      destruct (Hrun (raders_mul p tws x0 A) b1 e1) as (b2 & e2 & Lb2 & Le2 & E2); auto using raders_mul_length.
      rewrite E2. cbn [bind].
      assert (LB : length (fi (raders_mul p tws x0 A)) = n) by (apply Lfi, raders_mul_length).
      rewrite scatter_ok by auto. cbn [bind]. eexists. split; [reflexivity|]. rewrite app_length. lia.
    - intros _ c out scr Lc Lo Ls. unfold raders_oop.
      destruct out as [|o0 os]; [simpl in Lo; lia|]. destruct c as [|x0 xs]; [simpl in Lc; lia|].
      assert (Lx : length xs = n) by (simpl in Lc; unfold n; lia).
      assert (Los : length os = n) by (simpl in Lo; unfold n; lia).
      rewrite (gather_ok x0) by auto. cbn [bind].
      set (g := raders_gather p root (x0 :: xs)).
      assert (Lg : length g = n) by apply raders_gather_length.
      assert (Hrun : forall inner buf scr', length inner = n -> length buf = n -> length scr' = length scr ->
        exists buf' scr'', length buf' = n /\ length scr'' = length scr /\
        (if 0 <? length scr' then
          '(i, e) <- dht_process_with_scratch d inner scr' ;; Ok (i, buf, e)
        else
          '(i, b) <- dht_process_with_scratch d inner buf ;; Ok (i, b, scr')) = Ok (fi inner, buf', scr'')).
      { intros inner buf scr' L1 L2 L3. rewrite L3, Ls.
        destruct (Nat.leb_spec (dht_inplace_scratch d) n).
        - simpl (0 <? 0). cbn iota.
          destruct (ok_inplace _ _ d_ok ltac:(lia) 1 inner buf) as (b' & E & Lb & _); try lia.
          rewrite E, d_len, map_chunks_one by (auto; lia). cbn [bind]. exists b', scr'. repeat split; auto; lia.
        - destruct (Nat.ltb_spec 0 (dht_inplace_scratch d)); [|lia].
          destruct (ok_inplace _ _ d_ok ltac:(lia) 1 inner scr') as (b' & E & Lb & _); try lia.
          rewrite E, d_len, map_chunks_one by (auto; lia). cbn [bind]. exists buf, b'. repeat split; auto; lia. }
      destruct (Hrun g xs scr) as (b1 & e1 & Lb1 & Le1 & E1); auto. rewrite E1. cbn [bind].
      set (A := fi g). assert (LA : length A = n) by (now apply Lfi).
      pose proof (mul_oop_ok tws x0 A b1 LA Lb1 Lt) as M.
      rewrite (idx_ok nzero) in M |- * by lia. rewrite (idx_ok (Cplx nzero nzero)) in M |- * by lia.
      cbn [bind] in M |- *. rewrite set_ok in M |- * by lia. cbn [bind] in M |- *.
      match type of M with bind ?X _ = _ => destruct X as [i1| | |]; try discriminate end.
      cbn [bind] in M |- *.
      match type of M with bind ?X _ = _ => destruct X as [i2| | |]; try discriminate end.
      cbn [bind] in M |- *.
      destruct (idx i2 0) as [v2| | |]; try discriminate. cbn [bind] in M |- *. rewrite M. cbn [bind].
      destruct (Hrun (raders_mul p tws x0 A) A e1) as (b2 & e2 & Lb2 & Le2 & E2); auto using raders_mul_length.
      rewrite E2. cbn [bind].
      assert (LB : length (fi (raders_mul p tws x0 A)) = n) by (apply Lfi, raders_mul_length).
      rewrite scatter_ok by auto. cbn [bind]. eexists _, _. split; [reflexivity|]. split; [|lia].
      simpl. lia.
  Qed.

  Lemma raders_table_length (B : list T) : length (raders_table p B) = n / 2 + 1.
  Proof. unfold raders_table. now rewrite map_length, seq_length. Qed.
End RadersLoops.
