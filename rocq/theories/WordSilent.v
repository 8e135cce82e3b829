(** * Rader's algorithm on a 32-bit target: a release build that returns wrong results *)
From Verif Require Export WordProof.
From Verif Require Import Lemmas RadersProof RadersContract ButterfliesProof NumTheory Residues RootProofs.
From Coq Require Import NArith ZArith Lia.

Local Open Scope nat_scope.

(** one step of the wrapped index *)
Definition wstep (p s k : N) : N := ((k * s) mod 4294967296) mod p.
Lemma index_wstep k s p : index_step (W := W32) Release k s p = Ok (N.to_nat (wstep (N.of_nat p) (N.of_nat s) (N.of_nat k))).
Proof.
  unfold index_step, usize, wstep. change (@span W32) with 4294967296%N.
  destruct (N.ltb_spec (N.of_nat k * N.of_nat s) 4294967296) as [L|L]; cbn [bind]; [|reflexivity].
  now rewrite (N.mod_small (_ * _) 4294967296) by exact L.
Qed.
(** the indices from step 2 on, if the steps 0 and 1 are 1 and [a]: none is 0, 2 or [a] *)
Definition avoids (a k : N) : bool := (negb (k =? 0) && negb (k =? 2) && negb (k =? a))%N.
Definition wgo (p s a : N) (st : N * bool) : N * bool := (wstep p s (fst st), snd st && avoids a (fst st))%bool.
Lemma wgo_all p s a : forall n st, snd (Nat.iter n (wgo p s a) st) = true ->
  snd st = true /\ forall j, j < n -> avoids a (fst (Nat.iter j (wgo p s a) st)) = true.
Proof.
  induction n as [|n IH]; intros st H; [split; [exact H|lia]|].
  cbn [Nat.iter nat_rect] in H. unfold wgo at 1 in H. cbn [snd] in H. apply andb_prop in H. destruct H as [H1 H2].
  destruct (IH st H1) as [A B]. split; [exact A|]. intros j Hj. destruct (Nat.eq_dec j n) as [->|]; [exact H2|]. apply B. lia.
Qed.

Section Silent.
  Context {T : Type} {NT : Num T}.

  (** the scatter loop that starts from a buffer with the values themselves *)
  Lemma scatter_silent (B : list T) p s : 3 <= length B -> p = length B + 1 -> (N.of_nat p < 2147483648)%N ->
    2 < s < p -> (N.of_nat s < N.of_nat p)%N ->
    snd (Nat.iter (length B - 2) (wgo (N.of_nat p) (N.of_nat s) (N.of_nat s)) (wstep (N.of_nat p) (N.of_nat s) (N.of_nat s), true)) = true ->
    exists o k, for_each B (fun x '(buf, k) => j <- wsub (W := W32) Release k 1 ;; buf <- set buf j x ;; k <- index_step (W := W32) Release k s p ;; Ok (buf, k)) (B, 1) = Ok (o, k) /\
      length o = length B /\ nth 1 o nzero = nth (s - 1) o nzero.
  Proof.
    intros L3 Hp U Hs Hs' Hw. destruct (wgo_all _ _ _ _ _ Hw) as [_ A]. clear Hw.
    set (P := N.of_nat p) in *. set (Sn := N.of_nat s) in *. set (g := wgo P Sn Sn) in *. set (st := (wstep P Sn Sn, true)) in *.
    set (w := fun j => match j with 0 => 1%N | 1 => Sn | S (S i) => fst (Nat.iter i g st) end).
    assert (Wl : forall j, (w j < P)%N).
    { intros [|[|j]]; [cbn; lia|cbn; lia|]. cbn [w]. destruct j; cbn [Nat.iter nat_rect]; [cbn [st fst]|unfold g, wgo at 1; cbn [fst]]; unfold wstep; apply N.mod_upper_bound; lia. }
    assert (Ws : forall j, w (S j) = wstep P Sn (w j)).
    { intros [|[|j]]; [|reflexivity|reflexivity]. cbn [w]. unfold wstep. rewrite N.mul_1_l, (N.mod_small Sn 4294967296), N.mod_small by lia. reflexivity. }
    assert (Wa : forall j, j < length B -> (1 <= w j)%N /\ w j <> 2%N /\ (w j = Sn -> j = 1)).
    { intros [|[|j]] Hj; [cbn; unfold Sn; lia|cbn; unfold Sn; lia|]. specialize (A j ltac:(lia)). unfold avoids in A. cbn [w].
      apply andb_prop in A. destruct A as [A A3]. apply andb_prop in A. destruct A as [A1 A2].
      apply Bool.negb_true_iff, N.eqb_neq in A1, A2, A3. lia. }
    assert (W0 : w 0 = 1%N) by reflexivity. assert (W1 : w 1 = Sn) by reflexivity. clearbody w. clear A g st.
    match goal with |- context [for_each ?l ?body ?s0] =>
      destruct (for_each_inv (fun j '(o, i) => length o = length B /\ i = N.to_nat (w j) /\
        nth 1 o nzero = nth 1 B nzero /\ (2 <= j -> nth (s - 1) o nzero = nth 1 B nzero)) l body s0 nzero)
        as ([o' i'] & E & L & Ei & R1 & R2) end.
    - repeat split; auto; [now rewrite W0|lia].
    - intros j [o i] Hj (L & -> & R1 & R2). destruct (Wa j Hj) as (A1 & A2 & A3). pose proof (Wl j) as Lj.
      rewrite (wsub_usub (W := W32)) by lia. unfold usub. destruct (Nat.leb_spec 1 (N.to_nat (w j))); [|lia]. cbn [bind].
      rewrite set_ok by lia. cbn [bind]. rewrite index_wstep, N2Nat.id. cbn [bind]. eexists. split; [reflexivity|]. cbv beta iota.
      rewrite upd_length, Ws. split; [exact L|]. split; [reflexivity|]. split.
      + rewrite nth_upd_neq by lia. exact R1.
      + intros J2. destruct (Nat.eq_dec j 1) as [->|].
        * rewrite W1. unfold Sn. rewrite Nat2N.id, nth_upd_eq by lia. reflexivity.
        * rewrite nth_upd_neq; [apply R2; lia|]. intros Eq. apply n, A3. unfold Sn in *. lia.
    - exists o', i'. split; [exact E|]. split; [exact L|]. rewrite R1, R2 by lia. reflexivity.
  Qed.

  (** an index that does not wrap *)
  Lemma gather_small (inp : list T) r len n : (N.of_nat len * N.of_nat r < 4294967296)%N -> 1 < len -> in_word (W := W32) (length inp) -> forall (out : list T),
    for_range 0 n (fun j '(out, k) => i <- wsub (W := W32) Release k 1 ;; v <- idx inp i ;; out <- set out j v ;; k <- index_step (W := W32) Release k r len ;; Ok (out, k)) (out, 1) =
    for_range 0 n (fun j '(out, k) => i <- usub k 1 ;; v <- idx inp i ;; out <- set out j v ;; k <- mul_mod Release k r len ;; Ok (out, k)) (out, 1).
  Proof.
    intros R L F out. apply (for_range_ext_inv (fun p => snd p < len)); [exact L|].
    intros j [o k] _ Hk. simpl in Hk. split.
    - rewrite wrapped_idx by auto. unfold index_step, mul_mod, usize, u64. change (@span W32) with 4294967296%N. unfold two64.
      assert (Q : (N.of_nat k * N.of_nat r < 4294967296)%N) by nia.
      destruct (N.ltb_spec (N.of_nat k * N.of_nat r) 4294967296); [|lia].
      destruct (N.ltb_spec (N.of_nat k * N.of_nat r) 18446744073709551616); [|lia]. reflexivity.
    - intros s' E. apply bind_inv in E. destruct E as (i & _ & E). apply bind_inv in E. destruct E as (v & _ & E).
      apply bind_inv in E. destruct E as (o' & _ & E). apply bind_inv in E. destruct E as (k' & Ek & [= <-]). simpl.
      eapply (index_step_lt (W := W32)); [|exact Ek]. lia.
  Qed.
  (** DhtNaive leaves its result in the scratch, too *)
  Lemma naive_twice n (x b : list T) : 0 < n -> length x = n -> length b = n ->
    dht_process_with_scratch (dht_naive n) x b = Ok (naive_fun n x, naive_fun n x).
  Proof.
    intros Hn Lx Lb. unfold dht_naive, boilerplate_dht_oop. cbn [dht_process_with_scratch]. rewrite naive_twiddles_length.
    destruct (Nat.eqb_spec n 0); [lia|]. rewrite Lx, Lb, Nat.ltb_irrefl. cbn [orb]. rewrite split_at_ok by lia. cbn [bind].
    rewrite (firstn_all2 b) by lia. unfold iter_chunks. rewrite Lx. destruct n as [|n']; [lia|].
    cbn [iter_chunks_go]. rewrite Lx, Nat.leb_refl. rewrite split_at_ok by lia. cbn [bind]. 
    rewrite (firstn_all2 x), (skipn_all2 x) by lia. rewrite naive_perform_ok by auto. cbn [bind].
    assert (Lf : length (naive_fun (S n') x) = S n') by (unfold naive_fun; now rewrite map_length, seq_length).
    unfold copy_from_slice. rewrite Lx, Lf, Nat.eqb_refl. cbn [bind length Nat.leb Nat.eqb]. rewrite app_nil_r.
    rewrite (skipn_all2 b) by lia. now rewrite app_nil_r.
  Qed.

  Lemma twiddles_run_length (v : list T) tws : raders_twiddles_run (W := W32) Release v = Ok tws -> length tws = length v / 2 + 1.
  Proof.
    unfold raders_twiddles_run. cbv zeta. intros E. apply bind_inv in E. destruct E as (a0 & _ & E). apply bind_inv in E. destruct E as (t1 & E1 & E).
    apply set_keeps in E1. rewrite repeat_length in E1. apply bind_inv in E. destruct E as (t2 & E2 & E). apply bind_inv in E. destruct E as (am & _ & E).
    apply set_keeps in E. rewrite E, <- E1. unfold for_range in E2.
    eapply (for_each_keeps (fun t => length t = length t1)) in E2; [exact E2| |reflexivity].
    intros i t t' Ht Et. do 3 (apply bind_inv in Et; destruct Et as (? & _ & Et)). apply set_keeps in Et. congruence.
  Qed.

  (** the two methods *)
  Lemma inplace_silent n r s tws (x scr : list T) : let p := n + 1 in 4 <= n -> n = 2 * (n / 2) -> (N.of_nat p < 2147483648)%N -> length tws = n / 2 + 1 ->
    (N.of_nat p * N.of_nat r < 4294967296)%N -> r < p -> distinct_powers p r -> 2 < s < p ->
    snd (Nat.iter (n - 2) (wgo (N.of_nat p) (N.of_nat s) (N.of_nat s)) (wstep (N.of_nat p) (N.of_nat s) (N.of_nat s), true)) = true ->
    length x = p -> length scr = n ->
    exists y s', raders_inplace_run (W := W32) Release (dht_naive n) p r s tws x scr = Ok (y, s') /\ length y = p /\ length s' = n /\ nth 2 y nzero = nth s y nzero.
  Proof.
    intros p N4 Ev U Lt Hr Rp Dp Hs Hg Lx Ls. unfold raders_inplace_run. destruct x as [|x0 xs]; [simpl in Lx; lia|]. cbv zeta.
    assert (Lxs : length xs = n) by (simpl in Lx; lia). assert (Hp : p - 1 = n) by (unfold p; lia).
    assert (Sp : (@span W32 = 4294967296)%N) by reflexivity.
    rewrite (wsub_usub (W := W32)) by lia. unfold usub at 1. destruct (Nat.leb_spec 1 p); [|lia]. cbn [bind]. rewrite Hp.
    rewrite split_at_ok by lia. cbn [bind]. rewrite (firstn_all2 scr), (skipn_all2 scr) by lia.
    rewrite gather_small by (auto; try lia; unfold in_word; lia).
    rewrite (gather_ok Release p r s ltac:(lia) ltac:(rewrite Hp; exact Ev) ltac:(lia) Rp ltac:(lia) Dp x0 xs scr) by lia. cbn [bind length Nat.ltb Nat.leb].
    set (G := raders_gather p r (x0 :: xs)).
    assert (LG : length G = n) by (unfold G, raders_gather; rewrite map_length, seq_length; lia).
    rewrite naive_twice by lia. cbn [bind]. set (A := naive_fun n G).
    assert (LA : length A = n) by (unfold A, naive_fun; now rewrite map_length, seq_length).
    pose proof (mul_inplace_ok p r s ltac:(lia) ltac:(rewrite Hp; exact Ev) ltac:(lia) Rp ltac:(lia) tws x0 A ltac:(lia) ltac:(rewrite Hp; exact Lt)) as M.
    rewrite (idx_ok nzero) in M |- * by lia. rewrite (idx_ok (Cplx nzero nzero)) in M |- * by lia.
    cbn [bind] in M |- *. rewrite set_ok in M |- * by lia. cbn [bind] in M |- *.
    rewrite !upd_length, LA in M |- *.
    match goal with |- context [for_range 1 (n / 2) ?f ?i] => match type of M with context [for_range 1 (n / 2) ?g i] => replace (for_range 1 (n / 2) f i) with (for_range 1 (n / 2) g i) end end.
    2:{ apply for_range_ext. intros j y Hj. assert (n / 2 <= n) by (apply Nat.div_le_upper_bound; lia). rewrite (wsub_usub (W := W32)) by lia. reflexivity. }
    match type of M with bind ?X _ = _ => destruct X as [i1| | |]; try discriminate end.
    cbn [bind] in M |- *.
    match type of M with bind ?X _ = _ => destruct X as [i2| | |]; try discriminate end.
    cbn [bind] in M |- *.
    destruct (idx i2 0) as [v2| | |]; try discriminate. cbn [bind] in M |- *. rewrite M. cbn [bind].
    set (M' := raders_mul p tws x0 A). assert (LM : length M' = n) by (unfold M', raders_mul; rewrite map_length, seq_length; lia).
    cbn [length Nat.ltb Nat.leb]. rewrite naive_twice by lia. cbn [bind]. set (B := naive_fun n M').
    assert (LB : length B = n) by (unfold B, naive_fun; now rewrite map_length, seq_length).
    destruct (scatter_silent B p s) as (o & k & E & Lo & K); [lia|unfold p; lia|exact U|exact Hs|lia|rewrite LB; exact Hg|].
    rewrite E. cbn [bind]. eexists _, _. split; [reflexivity|]. split; [simpl; unfold p; lia|]. split; [rewrite app_length; simpl; lia|].
    cbn [nth]. rewrite K. destruct s as [|s']; [lia|]. simpl. f_equal. lia.
  Qed.
  Lemma oop_silent n r s tws (x out : list T) : let p := n + 1 in 4 <= n -> n = 2 * (n / 2) -> (N.of_nat p < 2147483648)%N -> length tws = n / 2 + 1 ->
    (N.of_nat p * N.of_nat r < 4294967296)%N -> r < p -> distinct_powers p r -> 2 < s < p ->
    snd (Nat.iter (n - 2) (wgo (N.of_nat p) (N.of_nat s) (N.of_nat s)) (wstep (N.of_nat p) (N.of_nat s) (N.of_nat s), true)) = true ->
    length x = p -> length out = p ->
    exists i y, raders_oop_run (W := W32) Release (dht_naive n) p r s tws x out [] = Ok (i, y, []) /\ length i = p /\ length y = p /\ nth 2 y nzero = nth s y nzero.
  Proof.
    intros p N4 Ev U Lt Hr Rp Dp Hs Hg Lx Lo. unfold raders_oop_run. destruct out as [|o0 os]; [simpl in Lo; lia|]. destruct x as [|x0 xs]; [simpl in Lx; lia|].
    assert (Lxs : length xs = n) by (simpl in Lx; lia). assert (Los : length os = n) by (simpl in Lo; lia). assert (Hp : p - 1 = n) by (unfold p; lia).
    assert (Sp : (@span W32 = 4294967296)%N) by reflexivity.
    rewrite gather_small by (auto; try lia; unfold in_word; lia).
    rewrite (gather_ok Release p r s ltac:(lia) ltac:(rewrite Hp; exact Ev) ltac:(lia) Rp ltac:(lia) Dp x0 xs os) by lia. cbn [bind length Nat.ltb Nat.leb].
    set (G := raders_gather p r (x0 :: xs)).
    assert (LG : length G = n) by (unfold G, raders_gather; rewrite map_length, seq_length; lia).
    rewrite naive_twice by lia. cbn [bind]. set (A := naive_fun n G).
    assert (LA : length A = n) by (unfold A, naive_fun; now rewrite map_length, seq_length).
    pose proof (mul_oop_ok p r s ltac:(lia) ltac:(rewrite Hp; exact Ev) ltac:(lia) Rp ltac:(lia) tws x0 A A ltac:(lia) ltac:(lia) ltac:(rewrite Hp; exact Lt)) as M.
    rewrite (idx_ok nzero) in M |- * by lia. rewrite (idx_ok (Cplx nzero nzero)) in M |- * by lia.
    cbn [bind] in M |- *. rewrite set_ok in M |- * by lia. cbn [bind] in M |- *.
    rewrite LA in M |- *.
    match goal with |- context [for_range 1 (n / 2) ?f ?i] => match type of M with context [for_range 1 (n / 2) ?g i] => replace (for_range 1 (n / 2) f i) with (for_range 1 (n / 2) g i) end end.
    2:{ apply for_range_ext. intros j y Hj. assert (n / 2 <= n) by (apply Nat.div_le_upper_bound; lia). rewrite (wsub_usub (W := W32)) by lia. reflexivity. }
    match type of M with bind ?X _ = _ => destruct X as [i1| | |]; try discriminate end.
    cbn [bind] in M |- *.
    match type of M with bind ?X _ = _ => destruct X as [i2| | |]; try discriminate end.
    cbn [bind] in M |- *.
    destruct (idx i2 0) as [v2| | |]; try discriminate. cbn [bind] in M |- *. rewrite M. cbn [bind].
    set (M' := raders_mul p tws x0 A). assert (LM : length M' = n) by (unfold M', raders_mul; rewrite map_length, seq_length; lia).
    cbn [length Nat.ltb Nat.leb]. rewrite naive_twice by lia. cbn [bind]. set (B := naive_fun n M').
    assert (LB : length B = n) by (unfold B, naive_fun; now rewrite map_length, seq_length).
    destruct (scatter_silent B p s) as (o & k & E & Lo' & K); [lia|unfold p; lia|exact U|exact Hs|lia|rewrite LB; exact Hg|].
    rewrite E. cbn [bind]. eexists _, _. split; [reflexivity|]. split; [simpl; unfold p; lia|]. split; [simpl; unfold p; lia|].
    cbn [nth]. rewrite K. destruct s as [|s']; [lia|]. simpl. f_equal. lia.
  Qed.
End Silent.
