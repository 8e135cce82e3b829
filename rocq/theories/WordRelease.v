(** * Rader's algorithm on a 32-bit target, release builds: the transform is computed only if no index wraps *)
From Verif Require Export WordSilent.
From Verif Require Import Lemmas Contract ApiProof WordCas RadersProof RadersContract NumTheory Residues RootProofs RealDHT DHTTheory ButterfliesReal SplitReal Spec ParamTree WordSpec.
From Coq Require Import NArith ZArith Reals Lra Lia List.
Import ListNotations.
Local Open Scope nat_scope.

(** what a loop that returns has established *)
Lemma for_each_out {A St} (I : nat -> St -> Prop) (dflt : A) (l : list A) body : forall s s' j0,
  I j0 s -> (forall j s s', j < length l -> I (j0 + j) s -> body (nth j l dflt) s = Ok s' -> I (S (j0 + j)) s') ->
  for_each l body s = Ok s' -> I (j0 + length l) s'.
Proof.
  induction l as [|a l IH]; intros s s' j0 H0 Hb E; cbn [for_each] in E.
  - injection E as <-. now rewrite Nat.add_0_r.
  - apply bind_inv in E. destruct E as (s1 & E1 & E). cbn [length]. rewrite Nat.add_succ_r, <- Nat.add_succ_l.
    apply (IH s1 s' (S j0)); [| |exact E].
    + specialize (Hb 0 s s1 ltac:(simpl; lia)). rewrite Nat.add_0_r in Hb. auto.
    + intros j t t' Hj Ht Et. rewrite Nat.add_succ_l, <- Nat.add_succ_r in Ht |- *. apply (Hb (S j) t t'); auto. simpl. lia.
Qed.
Lemma for_range_out {St} (I : nat -> St -> Prop) n body s s' :
  I 0 s -> (forall j s s', j < n -> I j s -> body j s = Ok s' -> I (S j) s') ->
  for_range 0 n body s = Ok s' -> I n s'.
Proof.
  intros H0 Hb E. unfold for_range in E. rewrite Nat.sub_0_r in E.
  pose proof (for_each_out I 0 (seq 0 n) body s s' 0 H0) as H. rewrite seq_length in H. apply H; [|exact E].
  intros j t t' Hj Ht Et. rewrite seq_nth in Et by exact Hj. now apply (Hb j t t').
Qed.

(** the wrapped index after [j] steps *)
Fixpoint wr (p r j : nat) : nat := match j with 0 => 1 | S i => N.to_nat (wstep (N.of_nat p) (N.of_nat r) (N.of_nat (wr p r i))) end.
Lemma wr_lt p r j : 1 < p -> wr p r j < p.
Proof. intros Hp. destruct j; cbn [wr]; [exact Hp|]. unfold wstep. pose proof (N.mod_lt ((N.of_nat (wr p r j) * N.of_nat r) mod 4294967296) (N.of_nat p)). lia. Qed.
Lemma ok_inj {A} (a b : A) : Ok a = Ok b -> a = b.
Proof. congruence. Qed.
Lemma wsub_cases k j : wsub (W := W32) Release k 1 = Ok j -> (1 <= k /\ j = k - 1) \/ N.of_nat j = (4294967296 + N.of_nat k - 1)%N.
Proof.
  unfold wsub. change (@span W32) with 4294967296%N. generalize 4294967296%N. intros S.
  destruct (Nat.leb_spec 1 k) as [L|L]; intros E; apply ok_inj in E; [left|right]; lia.
Qed.
Lemma index_back k j len : (N.of_nat len < 2147483648)%N -> wsub (W := W32) Release k 1 = Ok j -> j < len -> 1 <= k /\ j = k - 1.
Proof. intros Hl E Hj. apply wsub_cases in E. destruct E as [E|E]; [exact E|]. exfalso. lia. Qed.

Section Generic.
  Context {T : Type} {NT : Num T}.

  Lemma idx_inv (l : list T) i v : idx l i = Ok v -> i < length l /\ v = nth i l nzero.
  Proof.
    intros E. destruct (Nat.lt_ge_cases i (length l)) as [L|L].
    - rewrite (idx_ok nzero) in E by exact L. injection E as <-. auto.
    - unfold idx in E. apply nth_error_None in L. rewrite L in E. discriminate.
  Qed.
  Lemma set_inv (l l' : list T) i v : set l i v = Ok l' -> i < length l /\ l' = upd l i v.
  Proof. unfold set. destruct (Nat.ltb_spec i (length l)); [|discriminate]. intros [= <-]. auto. Qed.

  Lemma gather_wr (inp out : list T) r p s : 1 < p -> (N.of_nat p < 2147483648)%N -> length inp < p ->
    for_range 0 (length out) (fun j '(out, k) => i <- wsub (W := W32) Release k 1 ;; v <- idx inp i ;; out <- set out j v ;; k <- index_step (W := W32) Release k r p ;; Ok (out, k)) (out, 1) = Ok s ->
    (forall j, j < length out -> 1 <= wr p r j) /\ fst s = map (fun j => nth (wr p r j - 1) inp nzero) (seq 0 (length out)).
  Proof.
    intros Hp U Li E.
    apply (for_range_out (fun j (st : list T * nat) => length (fst st) = length out /\ snd st = wr p r j /\
      forall i, i < j -> 1 <= wr p r i /\ nth i (fst st) nzero = nth (wr p r i - 1) inp nzero)) in E.
    - destruct E as (L & _ & H). split; [intros j Hj; now apply H|]. apply (nth_list_ext nzero).
      + now rewrite map_length, seq_length.
      + intros i Hi. rewrite nth_map_seq by lia. rewrite Nat.add_0_l. apply H. lia.
    - cbn [fst snd]. split; [reflexivity|]. split; [reflexivity|lia].
    - intros j [o k] s' Hj (L & Hk & H) E'. cbn [fst snd] in L, Hk. pose proof (wr_lt p r j Hp) as Wl.
      apply bind_inv in E'. destruct E' as (i & Ei & E'). apply bind_inv in E'. destruct E' as (v & Ev & E').
      apply bind_inv in E'. destruct E' as (o' & Eo & E'). rewrite index_wstep in E'. injection E' as <-. cbn [fst snd].
      apply idx_inv in Ev. destruct Ev as [Bi ->]. apply set_inv in Eo. destruct Eo as [Bj ->].
      destruct (index_back k i p) as [K1 ->]; [exact U|exact Ei|lia|].
      rewrite upd_length. split; [exact L|]. split; [now rewrite Hk|]. intros q Hq. destruct (Nat.eq_dec q j) as [->|].
      + rewrite nth_upd_eq by exact Bj. rewrite <- Hk. auto.
      + rewrite nth_upd_neq by lia. apply H. lia.
  Qed.
  Lemma scatter_wr (B buf : list T) r p s : 1 < p -> (N.of_nat p < 2147483648)%N -> length buf < p ->
    for_each B (fun x '(buf, k) => j <- wsub (W := W32) Release k 1 ;; buf <- set buf j x ;; k <- index_step (W := W32) Release k r p ;; Ok (buf, k)) (buf, 1) = Ok s ->
    forall k, k < length B -> 1 <= wr p r k /\ ((forall k', k < k' < length B -> wr p r k' <> wr p r k) -> nth (wr p r k - 1) (fst s) nzero = nth k B nzero).
  Proof.
    intros Hp U Lb E.
    apply (for_each_out (fun j (st : list T * nat) => length (fst st) = length buf /\ snd st = wr p r j /\
      forall k, k < j -> 1 <= wr p r k /\ ((forall k', k < k' < j -> wr p r k' <> wr p r k) -> nth (wr p r k - 1) (fst st) nzero = nth k B nzero)) nzero _ _ _ _ 0) in E.
    - destruct E as (_ & _ & H). exact H.
    - cbn [fst snd]. split; [reflexivity|]. split; [reflexivity|lia].
    - intros j [o k] s' Hj (L & Hk & H) E'. cbn [fst snd] in L, Hk. rewrite Nat.add_0_l in *. pose proof (wr_lt p r j Hp) as Wl.
      apply bind_inv in E'. destruct E' as (i & Ei & E'). apply bind_inv in E'. destruct E' as (o' & Eo & E'). rewrite index_wstep in E'. injection E' as <-. cbn [fst snd].
      apply set_inv in Eo. destruct Eo as [Bj ->]. destruct (index_back k i p) as [K1 ->]; [exact U|exact Ei|lia|].
      rewrite upd_length. split; [exact L|]. split; [now rewrite Hk|]. intros q Hq. destruct (Nat.eq_dec q j) as [->|].
      + rewrite <- Hk. split; [exact K1|]. intros _. now rewrite nth_upd_eq by exact Bj.
      + destruct (H q ltac:(lia)) as [A1 A2]. split; [exact A1|]. intros Hn. rewrite nth_upd_neq; [apply A2; intros; apply Hn; lia|].
        specialize (Hn j ltac:(lia)). lia.
  Qed.
  Lemma table_wr s p (v : list T) : raders_inner_input (W := W32) Release p s = Ok v ->
    v = map (fun j => compute_dht_twiddle (wr p s j) p *! nrecip (p - 1)) (seq 0 (p - 1)).
  Proof.
    unfold raders_inner_input. cbv zeta. intros E. apply bind_inv in E. destruct E as ([a b] & E & [= <-]).
    apply (for_range_out (fun j (st : list T * nat) => length (fst st) = p - 1 /\ snd st = wr p s j /\
      forall i, i < j -> nth i (fst st) nzero = compute_dht_twiddle (wr p s i) p *! nrecip (p - 1))) in E.
    - cbn [fst snd] in E. destruct E as (L & _ & H). apply (nth_list_ext nzero).
      + now rewrite map_length, seq_length.
      + intros i Hi. rewrite nth_map_seq by lia. rewrite Nat.add_0_l. apply H. lia.
    - cbn [fst snd]. rewrite repeat_length. split; [reflexivity|]. split; [reflexivity|lia].
    - intros j [o k] s' Hj (L & Hk & H) E'. cbn [fst snd] in L, Hk.
      apply bind_inv in E'. destruct E' as (o' & Eo & E'). rewrite index_wstep in E'. injection E' as <-. cbn [fst snd].
      apply set_inv in Eo. destruct Eo as [Bj ->]. rewrite upd_length. split; [exact L|]. split; [now rewrite Hk|].
      intros q Hq. destruct (Nat.eq_dec q j) as [->|].
      + rewrite nth_upd_eq by exact Bj. now rewrite Hk.
      + rewrite nth_upd_neq by lia. apply H. lia.
  Qed.

  Lemma oop_wr (d : Dht T) fi n r s tws x0 (xs out scr : list T) i' y s' : let p := n + 1 in
    dht_ok d fi -> dht_len d = n -> 2 <= n -> n = 2 * (n / 2) -> (N.of_nat p < 2147483648)%N -> length tws = n / 2 + 1 ->
    length xs = n -> length out = p -> length scr = raders_extra d -> r < p -> s < p ->
    raders_oop_run (W := W32) Release d p r s tws (x0 :: xs) out scr = Ok (i', y, s') ->
    let B := fi (raders_mul p tws x0 (fi (map (fun j => nth (wr p r j) (x0 :: xs) nzero) (seq 0 n)))) in
    (forall j, j < n -> 1 <= wr p r j) /\
    forall k, k < n -> 1 <= wr p s k /\ ((forall k', k < k' < n -> wr p s k' <> wr p s k) -> nth (wr p s k) y nzero = nth k B nzero).
  Proof.
    intros p Hd Ln N2 Ev U Lt Lxs Lo Ls Rp Sp E. cbv zeta. unfold raders_oop_run in E. destruct out as [|o0 os]; [simpl in Lo; lia|].
    assert (Los : length os = n) by (simpl in Lo; lia). assert (Hp : p - 1 = n) by (unfold p; lia).
    assert (Lfi : forall x, length x = n -> length (fi x) = n) by (rewrite <- Ln; apply (ok_len _ _ Hd)).
    apply bind_inv in E. destruct E as ([o1 k1] & Eg & E). apply gather_wr in Eg; [|lia|exact U|lia]. cbn [fst] in Eg. rewrite Los in Eg. destruct Eg as [G1 G2].
    assert (Go : o1 = map (fun j => nth (wr p r j) (x0 :: xs) nzero) (seq 0 n)).
    { rewrite G2. apply map_ext_in. intros j Hj. apply in_seq in Hj. specialize (G1 j ltac:(lia)). destruct (wr p r j); [lia|]. simpl. now rewrite Nat.sub_0_r. }
    rewrite <- Go. set (B := fi (raders_mul p tws x0 (fi o1))). assert (Lo1 : length o1 = n) by (rewrite Go, map_length, seq_length; reflexivity). clear G2 Go.
    assert (Hrun : forall inner buf scr', length inner = n -> length buf = n -> length scr' = length scr ->
        exists buf' scr'', length buf' = n /\ length scr'' = length scr /\
        (if 0 <? length scr' then
          '(i, e) <- dht_process_with_scratch d inner scr' ;; Ok (i, buf, e)
        else
          '(i, b) <- dht_process_with_scratch d inner buf ;; Ok (i, b, scr')) = Ok (fi inner, buf', scr'')).
    { intros inner buf scr' L1 L2 L3. unfold raders_extra in Ls. rewrite Ln in Ls.
      destruct (Nat.leb_spec (dht_inplace_scratch d) n); destruct (Nat.ltb_spec 0 (length scr')); try lia.
      - destruct (ok_inplace _ _ Hd ltac:(lia) 1 inner buf) as (b' & E' & Lb & _); try lia.
        rewrite E', Ln, map_chunks_one by (auto; lia). cbn [bind]. exists b', scr'. split; [lia|]. split; [lia|reflexivity].
      - destruct (ok_inplace _ _ Hd ltac:(lia) 1 inner scr') as (b' & E' & Lb & _); try lia.
        rewrite E', Ln, map_chunks_one by (auto; lia). cbn [bind]. exists buf, b'. split; [lia|]. split; [lia|reflexivity]. }
    destruct (Hrun o1 xs scr) as (b1 & e1 & Lb1 & Le1 & E1); auto. rewrite E1 in E. cbn [bind] in E.
    set (A := fi o1) in *. assert (LA : length A = n) by (now apply Lfi).
    pose proof (mul_oop_ok p r s ltac:(lia) ltac:(rewrite Hp; exact Ev) ltac:(lia) Rp Sp tws x0 A b1 ltac:(lia) ltac:(lia) ltac:(rewrite Hp; exact Lt)) as M.
    rewrite (idx_ok nzero) in M, E by lia. rewrite (idx_ok (Cplx nzero nzero)) in M, E by lia.
    cbn [bind] in M, E. rewrite set_ok in M, E by lia. cbn [bind] in M, E.
    rewrite LA in M, E.
    match type of E with context [for_range 1 (n / 2) ?f ?i] => match type of M with context [for_range 1 (n / 2) ?g i] => replace (for_range 1 (n / 2) f i) with (for_range 1 (n / 2) g i) in E end end.
    2:{ apply for_range_ext. intros j z Hj. assert (n / 2 <= n) by (apply Nat.div_le_upper_bound; lia). rewrite (wsub_usub (W := W32)) by (change (@span W32) with 4294967296%N; lia). reflexivity. }
    match type of M with bind ?X _ = _ => destruct X as [i1| | |]; try discriminate end.
    cbn [bind] in M, E.
    match type of M with bind ?X _ = _ => destruct X as [i2| | |]; try discriminate end.
    cbn [bind] in M, E.
    destruct (idx i2 0) as [v2| | |]; try discriminate. cbn [bind] in M, E. rewrite M in E. cbn [bind] in E.
    set (M' := raders_mul p tws x0 A) in *. assert (LM : length M' = n) by (unfold M', raders_mul; rewrite map_length, seq_length; lia).
    destruct (Hrun M' A e1) as (b2 & e2 & Lb2 & Le2 & E2); auto. rewrite E2 in E. cbn [bind] in E. change (fi M') with B in E.
    assert (LB : length B = n) by (now apply Lfi).
    apply bind_inv in E. destruct E as ([o3 k3] & Es & [= _ <- _]). split; [exact G1|]. intros k Hk.
    pose proof (scatter_wr B b2 s p _ ltac:(lia) U ltac:(lia) Es k ltac:(lia)) as [H1 H2]. cbn [fst] in H2. split; [exact H1|].
    intros H. rewrite LB in H2. specialize (H2 H). rewrite <- H2. destruct (wr p s k); [lia|]. simpl. now rewrite Nat.sub_0_r.
  Qed.
End Generic.

(** one call on one chunk *)
Lemma oop_call {T} n s o f (g : list T -> list T -> list T -> res (list T * list T * list T)) x out scr y : 0 < n ->
  length x = n -> length out = n -> length scr = o ->
  dht_process_oop (boilerplate_dht n s o f g) x out scr = Ok y -> exists i z e, g x out scr = Ok (i, z, e) /\ snd (fst y) = z.
Proof.
  intros Hn Lx Lo Ls. unfold boilerplate_dht. cbn [dht_process_oop]. destruct (Nat.eqb_spec n 0); [lia|].
  rewrite Ls, Nat.ltb_irrefl, Lx, Nat.ltb_irrefl, Lo, Nat.eqb_refl. cbn [orb negb]. rewrite split_at_ok by lia. cbn [bind].
  rewrite firstn_all2 by lia. pose proof (iter_zipped_visit n g [(x, out)] [] [] scr Hn) as V. cbn [map fst snd concat visit2] in V. rewrite !app_nil_r in V.
  rewrite V; [|repeat constructor; auto|left; exact Hn]. clear V. destruct (g x out scr) as [[[i z] e]| | |]; try discriminate. cbn [bind map fst snd concat length Nat.eqb]. rewrite !app_nil_r.
  intros [= <-]. exists i, z, e. split; reflexivity.
Qed.

Lemma run_table {T} {NT : Num T} {W : width} m size (d D : Dht T) : (N.of_nat (dht_len d) + 1 < span / 2)%N -> raders_run m size d = Ok D ->
  exists r ri s tin v tws, raders_roots m (dht_len d + 1) = Ok (r, ri) /\ raders_inner_input m (dht_len d + 1) ri = Ok tin /\
    dht_process d tin = Ok v /\ raders_twiddles v = Ok tws /\
    D = boilerplate_dht (dht_len d + 1) s (raders_extra d) (raders_inplace_run m d (dht_len d + 1) r ri tws) (raders_oop_run m d (dht_len d + 1) r ri tws).
Proof.
  intros U E. pose proof U as U'. rewrite half_span in U'. unfold raders_run in E. cbv zeta in E. rewrite uadd_fits in E by (unfold in_word; wnum). cbn [bind] in E.
  apply bind_inv in E. destruct E as (u & Em & E). apply bind_inv in E. destruct E as ([r ri] & Er & E).
  rewrite raders_roots_same in Er by lia. apply bind_inv in E. destruct E as (u1 & _ & E).
  apply bind_inv in E. destruct E as (tin & Et & E). apply bind_inv in E. destruct E as (u2 & _ & E).
  apply bind_inv in E. destruct E as (x & Ex & E). apply bind_inv in E. destruct E as (tl & _ & E). apply bind_inv in E. destruct E as (u3 & _ & E).
  apply bind_inv in E. destruct E as (tws & Etw & E). apply bind_inv in E. destruct E as (sl & Es & E). injection E as <-.
  rewrite raders_twiddles_same in Etw. exists r, ri, sl, tin, x, tws. auto.
Qed.

(** a step that gives the right residue did not wrap *)
Lemma no_wrap p a b : std_prime p -> Nat.Odd p -> a < p -> b < p -> (N.of_nat p < 4294967296)%N ->
  (a * b) mod p = N.to_nat (wstep (N.of_nat p) (N.of_nat b) (N.of_nat a)) -> (N.of_nat a * N.of_nat b < 4294967296)%N.
Proof.
  intros Pp Op La Lb U E. pose proof (std_prime_ge2 p Pp) as P2. unfold wstep in E.
  assert (E' : ((N.of_nat a * N.of_nat b) mod N.of_nat p = ((N.of_nat a * N.of_nat b) mod 4294967296) mod N.of_nat p)%N).
  { rewrite <- Nat2N.inj_mul, <- Nat2N.inj_mod, E, N2Nat.id, Nat2N.inj_mul. reflexivity. }
  clear E. set (X := (N.of_nat a * N.of_nat b)%N) in *. apply N.nle_gt. intros O.
  pose proof (N.div_mod X 4294967296 ltac:(discriminate)) as D. set (q := (X / 4294967296)%N) in *. set (t := (X mod 4294967296)%N) in *.
  pose proof (N.mod_lt X 4294967296 ltac:(discriminate)) as Tl. fold t in Tl.
  assert (Q : (0 < q < N.of_nat p)%N) by (unfold X in *; split; nia).
  assert (Z : ((4294967296 * q) mod N.of_nat p = 0)%N).
  { pose proof (N.div_mod X (N.of_nat p) ltac:(lia)) as D1. pose proof (N.div_mod t (N.of_nat p) ltac:(lia)) as D2.
    apply N.mod_divide; [lia|]. exists (X / N.of_nat p - t / N.of_nat p)%N. rewrite N.mul_sub_distr_r. nia. }
  apply (f_equal N.to_nat) in Z. change (N.to_nat 0) with 0 in Z. rewrite N2Nat.inj_mod, N2Nat.inj_mul, Nat2N.id in Z.
  change 4294967296%N with (2 ^ 32)%N in Z. rewrite N2Nat.inj_pow in Z. change (N.to_nat 2) with 2 in Z. change (N.to_nat 32) with 32 in Z.
  apply std_prime_mul in Z; [|exact Pp]. destruct Z as [Z|Z].
  - revert Z. apply pow_mod_nz; [exact Pp|]. destruct Op as [h Hh]. rewrite Nat.mod_small; lia.
  - rewrite Nat.mod_small in Z; lia.
Qed.

Section Exactly.
  Lemma release_fits size (d D : Dht R) : let p := dht_len d + 1 in
    dht_ok d dht_spec -> nprime (N.of_nat p) -> 4 <= dht_len d -> (N.of_nat p < 2147483648)%N ->
    @raders_run W32 R (RNum rh) Release size d = Ok D -> (forall a, a < p -> exists i e, dht_process_oop D (unit_vec p a) (unit_vec p a) (repeat 0%R (dht_oop_scratch D)) = Ok (i, dht_spec (unit_vec p a), e)) ->
    forall r s, raders_roots Release p = Ok (r, s) -> (N.of_nat (p - 1) * N.of_nat r < 4294967296)%N /\ (N.of_nat (p - 1) * N.of_nat s < 4294967296)%N.
  Proof.
    intros p Hd P N4 U E HD r s Er. pose proof (std_of p P) as Sp. set (n := dht_len d) in *. assert (Hp : p - 1 = n) by (unfold p; lia).
    apply run_table in E; [|change (@span W32 / 2)%N with 2147483648%N; fold n; unfold p in U; lia].
    destruct E as (r' & s' & sl & tin & v & tws & Er' & Et & Ev & Ew & ->). fold n in Er', Et, HD. fold p in Er', Et, HD.
    rewrite Er in Er'. injection Er' as <- <-.
    destruct (raders_roots_ok Release p P ltac:(lia) ltac:(change (2 ^ 32)%N with 4294967296%N; lia)) as (r2 & s2 & E2 & R2 & S2 & Or & Os & I2).
    rewrite Er in E2. injection E2 as <- <-.
    assert (Op : Nat.Odd p).
    { apply Nat.odd_spec. rewrite <- Nat.negb_even. apply Bool.negb_true_iff, Bool.not_true_iff_false. intros Q. apply Nat.even_spec in Q. destruct Q as [h Hh].
      destruct Sp as [_ Dv]. destruct (Dv 2); [exists h; lia|lia|lia]. }
    assert (Evn : n = 2 * (n / 2)). { destruct Op as [h Hh]. replace n with (h * 2) by lia. rewrite Nat.div_mul by lia. lia. }
    apply (@table_wr R (RNum rh)) in Et.
    assert (Lt : length tin = n) by (rewrite Et, map_length, seq_length; exact Hp).
    rewrite (dht_process_ok d dht_spec tin Hd) in Ev by (fold n; lia). injection Ev as <-.
    rewrite (@raders_twiddles_ok R (RNum rh) p r s) in Ew; [|lia|rewrite Hp; exact Evn|lia|lia|lia|rewrite dht_spec_length; lia]. injection Ew as <-.
    set (w := wr p s). set (vv := wr p r).
    assert (Tin : tin = map (fun j => (cas (ang p (w j)) * / INR n)%R) (seq 0 n)).
    { rewrite Et, Hp. apply map_ext. intros j. cbn [nmul nrecip RNum]. now rewrite dht_twiddle_val. }
    clear Et. set (tws := raders_table p (dht_spec tin)) in *.
    assert (K : forall a, a < p -> let x := unit_vec p a in (forall j, j < n -> 1 <= vv j) /\ forall k, k < n -> 1 <= w k /\ ((forall k', k < k' < n -> w k' <> w k) ->
      (dht_at x (w k) = nth 0 x 0 + rsum n (fun j => nth (vv j) x 0 * cas (ang p (w ((k + (n - j)) mod n)%nat))))%R)).
    { intros a Ha x. assert (Lx : length x = p) by (unfold x, unit_vec; now rewrite map_length, seq_length).
      destruct (HD a Ha) as (i' & e' & Eo). fold x in Eo. cbn [dht_oop_scratch boilerplate_dht] in Eo. clearbody x.
      apply oop_call in Eo; [|lia|exact Lx|exact Lx|apply repeat_length]. destruct Eo as (i & z & e & Eo & Ez). cbn [fst snd] in Ez.
      subst z. destruct x as [|x0 xs]; [simpl in Lx; lia|].
      pose proof (@oop_wr R (RNum rh) d dht_spec n r s tws x0 xs (x0 :: xs) (repeat 0%R (raders_extra d)) i (dht_spec (x0 :: xs)) e) as H. cbv zeta in H. fold p in H.
      specialize (H Hd eq_refl ltac:(lia) Evn U ltac:(unfold tws; rewrite raders_table_length, Hp; reflexivity) ltac:(simpl in Lx; lia) Lx ltac:(apply repeat_length) ltac:(lia) S2 Eo).
      destruct H as [H1 H2]. split; [exact H1|]. intros k Hk. destruct (H2 k Hk) as [H3 H4]. split; [exact H3|]. intros L. specialize (H4 L).
      cbn [nzero RNum] in H4. fold w in H4. rewrite nth_dht_spec in H4 by (rewrite Lx; apply wr_lt; lia). rewrite H4. change (nth 0 (x0 :: xs) 0%R) with x0.
      unfold tws. rewrite Tin. pose proof (second_walk rh p (fun j => nth (vv j) (x0 :: xs) 0%R) (fun j => (cas (ang p (w j)) * / INR n)%R) x0) as Q.
      rewrite Hp in Q. specialize (Q ltac:(lia) (eq_sym Evn) k Hk). unfold vv in Q at 1. rewrite Q. f_equal. unfold convf. rewrite <- rsum_scal. apply rsum_ext.
      intros j Hj. field. apply not_0_INR. lia. }
    assert (Bv : forall j, j < p - 1 -> 1 <= vv j < p).
    { intros j Hj. split; [|apply wr_lt; lia]. destruct (K 0 ltac:(lia)) as [K1 _]. apply K1. lia. }
    assert (Bw : forall j, j < p - 1 -> 1 <= w j < p).
    { intros j Hj. split; [|apply wr_lt; lia]. destruct (K 0 ltac:(lia)) as [_ K1]. apply K1. lia. }
    assert (HF : forall a k, a < p -> k < p - 1 -> (forall k', k < k' < p - 1 -> w k' <> w k) -> let x := unit_vec p a in
      (dht_at x (w k) = nth 0 x 0 + rsum (p - 1) (fun j => nth (vv j) x 0 * cas (ang p (w ((k + ((p - 1) - j)) mod (p - 1))%nat))))%R).
    { intros a k Ha Hk L. rewrite Hp in *. destruct (K a Ha) as [_ K1]. now apply K1. }
    assert (W1 : forall b, b < p -> wr p b 1 = b).
    { intros b Hb. cbn [wr]. unfold wstep. change (N.of_nat 1) with 1%N. rewrite N.mul_1_l, (N.mod_small (N.of_nat b) 4294967296), N.mod_small by lia. apply Nat2N.id. }
    assert (Sq : forall b, no_small_order p b -> b <> p - 1).
    { intros b [_ Ob] ->. apply (Ob 2); [lia|]. replace ((p - 1) ^ 2) with (1 + (p - 2) * p) by (simpl; nia). rewrite Nat.mod_add, Nat.mod_small; lia. }
    pose proof (v_of_w p vv w Sp Op ltac:(lia) Bv Bw HF eq_refl) as VW. rewrite Hp in VW.
    split.
    - destruct (v_surj p vv w Op ltac:(lia) Bv HF (p - 1)) as (k & Hk & Ek); [lia|]. rewrite Hp in Hk. rewrite <- Ek.
      apply (no_wrap p); [exact Sp|exact Op|apply wr_lt; lia|lia|lia|].
      change (N.to_nat (wstep (N.of_nat p) (N.of_nat r) (N.of_nat (vv k)))) with (vv (S k)).
      destruct (Nat.eq_dec k 0) as [->|K0]; [cbn in Ek; lia|]. destruct (Nat.eq_dec (S k) n) as [El|].
      + exfalso. apply (Sq s Os). rewrite <- Ek, VW by lia. replace (n - k) with 1 by lia. symmetry. now apply W1.
      + rewrite <- (v_mul p vv w Sp Op ltac:(lia) Bv Bw HF eq_refl k) by lia. unfold vv at 2. rewrite W1 by lia. now rewrite Nat.mul_comm.
    - destruct (w_surj p vv w Sp Op ltac:(lia) Bv Bw HF eq_refl (p - 1)) as (k & Hk & Ek); [lia|]. rewrite Hp in Hk. rewrite <- Ek.
      apply (no_wrap p); [exact Sp|exact Op|apply wr_lt; lia|lia|lia|].
      change (N.to_nat (wstep (N.of_nat p) (N.of_nat s) (N.of_nat (w k)))) with (w (S k)).
      destruct (Nat.eq_dec (S k) n) as [El|].
      + exfalso. apply (Sq r Or). rewrite <- Ek. replace k with (n - 1) by lia. rewrite <- VW by lia. symmetry. apply W1. lia.
      + rewrite <- (w_mul p vv w Sp Op ltac:(lia) Bv Bw HF eq_refl k) by lia. unfold w at 2. rewrite W1 by lia. now rewrite Nat.mul_comm.
  Qed.
End Exactly.
