(** * Rader's algorithm on a 32-bit target: where the indices leave the word *)
From Verif Require Export ProcTree Api NumSpec WordSpec.
From Verif Require Import Lemmas RootProofs Residues RadersContract RadersProof NumTheory MathProofs PropsParamProof ApiProof.
From Coq Require Import NArith ZArith Lia.

Local Open Scope nat_scope.

(** [n] applications of [f], from [i] *)
Fixpoint walk (f : nat -> res nat) (n i : nat) : res nat :=
  match n with 0 => Ok i | S n' => x <- walk f n' i ;; f x end.
Lemma walk_head f n i : walk f (S n) i = (x <- f i ;; walk f n x).
Proof.
  induction n as [|n IH]; [cbn; now destruct (f i)|].
  change (walk f (S (S n)) i) with (x <- walk f (S n) i ;; f x). rewrite IH. destruct (f i); reflexivity.
Qed.
Lemma walk_prefix f n i x : walk f n i = Ok x -> forall j, j <= n -> exists y, walk f j i = Ok y.
Proof.
  revert x. induction n as [|n IH]; intros x E j Hj.
  - replace j with 0 by lia. cbn. eauto.
  - destruct (Nat.eq_dec j (S n)) as [->|]; [eauto|]. cbn [walk] in E. apply bind_inv in E. destruct E as (y & E & _).
    apply (IH y E). lia.
Qed.
Lemma loop_walk {A St} (ix : St -> nat) (I : St -> Prop) f (l : list A) body :
  (forall a s s', I s -> body a s = Ok s' -> I s' /\ f (ix s) = Ok (ix s')) ->
  forall s s', I s -> for_each l body s = Ok s' -> walk f (length l) (ix s) = Ok (ix s').
Proof.
  intros Hb. induction l as [|a l IH]; intros s s' Is E; [cbn in *; congruence|].
  cbn [for_each] in E. apply bind_inv in E. destruct E as (s1 & E1 & E). destruct (Hb _ _ _ Is E1) as [I1 F1].
  change (length (a :: l)) with (S (length l)). rewrite walk_head, F1. cbn [bind]. now apply IH.
Qed.

(** ** debug builds *)
Lemma index_step_debug {W : width} a b n x : index_step Debug a b n = Ok x -> (N.of_nat a * N.of_nat b < span)%N /\ (0 < n -> x = (a * b) mod n).
Proof.
  unfold index_step, usize. destruct (N.ltb_spec (N.of_nat a * N.of_nat b) span) as [L|L]; [|discriminate].
  cbn [bind]. intros [= <-]. split; [exact L|]. intros Hn.
  apply Nat2N.inj. rewrite N2Nat.id, Nat2N.inj_mod, Nat2N.inj_mul. reflexivity.
Qed.
Lemma walk_pw {W : width} p r : 1 < p -> forall j x, walk (fun i => index_step Debug i r p) j 1 = Ok x -> x = pw p r j.
Proof.
  intros Hp. induction j as [|j IH]; intros x E.
  - cbn in E. injection E as <-. now rewrite pw_0.
  - cbn [walk] in E. apply bind_inv in E. destruct E as (y & E & Es). apply IH in E. subst y.
    apply index_step_debug in Es. destruct Es as [_ ->]; [|lia]. now rewrite pw_S by lia.
Qed.
Lemma walk_overflows {W : width} p r n x : 1 < p -> generates p r -> (span <= N.of_nat (p - 1) * N.of_nat r)%N -> p - 1 <= n ->
  walk (fun i => index_step Debug i r p) n 1 <> Ok x.
Proof.
  intros Hp G O Hn E. destruct (G (p - 1) ltac:(lia)) as (j & Hj & Ej).
  destruct (walk_prefix _ _ _ _ E (S j) ltac:(lia)) as [y Ey]. cbn [walk] in Ey. apply bind_inv in Ey. destruct Ey as (z & Ez & Ey).
  apply walk_pw in Ez; [|exact Hp]. subst z. rewrite Ej in Ey. apply index_step_debug in Ey. destruct Ey as [L _]. lia.
Qed.

Section Word.
  Context {W : width} {T : Type} {NT : Num T}.
  Implicit Types d : Dht T.

  (** the loops, as far as their indices go *)
  Lemma table_walk m len ri (v : list T) : raders_inner_input m len ri = Ok v -> exists x, walk (fun i => index_step m i ri len) (len - 1) 1 = Ok x.
  Proof.
    unfold raders_inner_input, for_range. intros E. apply bind_inv in E. destruct E as ([a b] & E & _).
    eapply (loop_walk snd (fun _ => True) (fun i => index_step m i ri len)) in E; [|clear E|exact Logic.I].
    - rewrite seq_length, Nat.sub_0_r in E. cbn in E. eauto.
    - intros j [x k] s' _ E. apply bind_inv in E. destruct E as (x' & _ & E). apply bind_inv in E. destruct E as (k' & E & [= <-]).
      split; [exact Logic.I|exact E].
  Qed.
  Lemma table_length m len ri (v : list T) : raders_inner_input m len ri = Ok v -> length v = len - 1.
  Proof.
    unfold raders_inner_input, for_range. intros E. apply bind_inv in E. destruct E as ([a b] & E & [= <-]).
    eapply (for_each_keeps (fun p : list T * nat => length (fst p) = len - 1)) in E; [exact E| |apply repeat_length].
    intros j [x k] s' Hx E'. simpl in Hx. apply bind_inv in E'. destruct E' as (b' & Es & E').
    apply bind_inv in E'. destruct E' as (k' & _ & [= <-]). apply set_keeps in Es. simpl. congruence.
  Qed.
  Lemma gather_walk m (inp : list T) r len n (out : list T) s :
    for_range 0 n (fun j '(out, k) => i <- wsub m k 1 ;; v <- idx inp i ;; out <- set out j v ;; k <- index_step m k r len ;; Ok (out, k)) (out, 1) = Ok s ->
    (exists x, walk (fun i => index_step m i r len) n 1 = Ok x) /\ length (fst s) = length out.
  Proof.
    unfold for_range. intros E. split.
    - eapply (loop_walk snd (fun _ => True) (fun i => index_step m i r len)) in E; [|clear E|exact Logic.I].
      + rewrite seq_length, Nat.sub_0_r in E. cbn in E. eauto.
      + intros j [x k] s' _ E. apply bind_inv in E. destruct E as (x' & _ & E). apply bind_inv in E. destruct E as (v & _ & E).
        apply bind_inv in E. destruct E as (x2 & _ & E). apply bind_inv in E. destruct E as (k' & E & [= <-]).
        split; [exact Logic.I|exact E].
    - eapply (for_each_keeps (fun p : list T * nat => length (fst p) = length out)) in E; [exact E| |reflexivity].
      intros j [x k] s' Hx E'. simpl in Hx. apply bind_inv in E'. destruct E' as (j' & _ & E'). apply bind_inv in E'. destruct E' as (v & _ & E').
      apply bind_inv in E'. destruct E' as (b' & Es & E'). apply bind_inv in E'. destruct E' as (k' & _ & [= <-]). apply set_keeps in Es. simpl. congruence.
  Qed.
  (** an index 0 is out of bounds: [0 - 1] wraps to the largest usize *)
  Definition step_or_stop m r len i : res nat := if i =? 0 then Panic else index_step m i r len.
  Lemma scatter_walk (l buf : list T) r len s : (N.of_nat (length buf) < span)%N ->
    for_each l (fun x '(buf, k) => j <- wsub Release k 1 ;; buf <- set buf j x ;; k <- index_step Release k r len ;; Ok (buf, k)) (buf, 1) = Ok s ->
    exists x, walk (step_or_stop Release r len) (length l) 1 = Ok x.
  Proof.
    intros F E. eapply (loop_walk snd (fun p => length (fst p) = length buf) (step_or_stop Release r len)) in E; [|clear E s|reflexivity].
    - cbn in E. eauto.
    - intros x [b k] s' Hb E. simpl in Hb. apply bind_inv in E. destruct E as (j & Ej & E). apply bind_inv in E. destruct E as (b' & Es & E).
      apply bind_inv in E. destruct E as (k' & Ek & [= <-]). pose proof (set_keeps _ _ _ _ Es) as L. simpl. split; [congruence|].
      unfold step_or_stop. destruct (Nat.eqb_spec k 0) as [->|]; [exfalso|exact Ek].
      unfold wsub in Ej. destruct (Nat.leb_spec 1 0); [lia|]. injection Ej as <-. unfold set in Es.
      match type of Es with (if ?a <? ?b then _ else _) = _ => destruct (Nat.ltb_spec a b) as [B|]; [|discriminate] end.
      pose proof (unit_big W). pose proof (span_unit (W := W)). lia.
  Qed.

  Lemma boilerplate_never n s o (f : list T -> list T -> res (list T * list T)) g : 0 < n ->
    (forall c scr y, length c = n -> length scr = s -> f c scr <> Ok y) ->
    (forall i u scr y, length i = n -> length u = n -> length scr = o -> g i u scr <> Ok y) ->
    never_returns (boilerplate_dht n s o f g).
  Proof.
    intros Hn Hf Hg. split.
    - intros b scr y. unfold boilerplate_dht. cbn [dht_process_with_scratch]. destruct (Nat.eqb_spec n 0); [lia|].
      destruct (Nat.ltb_spec (length scr) s) as [Ls|Ls]; [|destruct (Nat.ltb_spec (length b) n) as [Lb|Lb]]; cbn [orb].
      + intros E. apply bind_inv in E. destruct E as (u & E & _). unfold dht_error_inplace in E.
        do 3 (apply bind_inv in E; destruct E as (? & _ & E)). unfold rassert in E. destruct (Nat.leb_spec s (length scr)); [lia|discriminate].
      + intros E. apply bind_inv in E. destruct E as (u & E & _). unfold dht_error_inplace in E.
        apply bind_inv in E. destruct E as (? & E & _). unfold rassert in E. destruct (Nat.leb_spec n (length b)); [lia|discriminate].
      + rewrite split_at_ok by lia. cbn [bind]. intros E. apply bind_inv in E. destruct E as ([[b' s'] k] & E & _).
        unfold iter_chunks in E. cbn [iter_chunks_go] in E. destruct (Nat.leb_spec n (length b)); [|lia].
        rewrite split_at_ok in E by lia. cbn [bind] in E. apply bind_inv in E. destruct E as (y1 & E & _).
        apply Hf in E; [exact E| |]; rewrite firstn_length; lia.
    - intros i u scr y. unfold boilerplate_dht. cbn [dht_process_oop]. destruct (Nat.eqb_spec n 0); [lia|].
      destruct (_ || _)%bool eqn:C.
      + intros E. apply bind_inv in E. destruct E as (v & E & _). unfold dht_error_outofplace in E.
        do 4 (apply bind_inv in E; let e := fresh in destruct E as (? & e & E); unfold rassert in e);
        unfold rassert in E; repeat match goal with H : (if ?b then _ else _) = Ok _ |- _ => destruct b eqn:?; [clear H|discriminate H] end.
        apply Bool.orb_true_iff in C. rewrite Bool.orb_true_iff in C.
        rewrite ?Nat.eqb_eq, ?Nat.leb_le, ?Nat.ltb_lt, ?Bool.negb_true_iff, ?Nat.eqb_neq in *. lia.
      + apply Bool.orb_false_iff in C. rewrite Bool.orb_false_iff in C. destruct C as [[C1 C2] C3].
        apply Nat.ltb_ge in C1, C2. apply Bool.negb_false_iff, Nat.eqb_eq in C3.
        rewrite split_at_ok by lia. cbn [bind]. intros E. apply bind_inv in E. destruct E as ([[[i' u'] s'] k] & E & _).
        unfold iter_chunks_zipped in E. destruct (Nat.ltb_spec (length u) (length i)); [lia|].
        cbn [iter_chunks_zipped_go] in E. destruct (Nat.leb_spec n (length i)); [|lia]. destruct (Nat.leb_spec n (length u)); [|lia]. cbn [andb] in E.
        rewrite split_at_ok in E by lia. cbn [bind] in E. rewrite split_at_ok in E by lia. cbn [bind] in E. apply bind_inv in E. destruct E as (y1 & E & _).
        apply Hg in E; [exact E| | |]; rewrite firstn_length; lia.
  Qed.

  Lemma inplace_gathers m d len r ri tws b s y : 1 <= len -> raders_inplace_run m d len r ri tws b s = Ok y ->
    exists x, walk (fun i => index_step m i r len) (len - 1) 1 = Ok x.
  Proof.
    intros L1 E. unfold raders_inplace_run in E. destruct b as [|b0 b]; [discriminate|]. cbv zeta in E.
    rewrite wsub_usub in E by lia. unfold usub in E. destruct (Nat.leb_spec 1 len); [|lia]. cbn [bind] in E.
    destruct (Nat.le_gt_cases (len - 1) (length s)) as [L|L]; [|unfold split_at in E; destruct (Nat.leb_spec (len - 1) (length s)); [lia|discriminate]].
    rewrite split_at_ok in E by lia. cbn [bind] in E. apply bind_inv in E. destruct E as (g & Eg & _).
    apply gather_walk in Eg. destruct Eg as [Eg _]. rewrite firstn_length, Nat.min_l in Eg by lia. exact Eg.
  Qed.
  Lemma oop_gathers m d len r ri tws i o s y : raders_oop_run m d len r ri tws i o s = Ok y ->
    exists x, walk (fun i => index_step m i r len) (length o - 1) 1 = Ok x.
  Proof.
    intros E. unfold raders_oop_run in E. destruct o as [|o0 o]; [discriminate|]. destruct i as [|i0 i]; [discriminate|].
    apply bind_inv in E. destruct E as (g & Eg & _). apply gather_walk in Eg. destruct Eg as [Eg _].
    simpl. now rewrite Nat.sub_0_r.
  Qed.
  Lemma mul_keeps (inn inn' : list T) (f : nat -> list T -> res (list T)) lo hi :
    (forall i x x', f i x = Ok x' -> length x' = length x) -> for_range lo hi f inn = Ok inn' -> length inn' = length inn.
  Proof.
    intros Hf E. unfold for_range in E. eapply (for_each_keeps (fun p => length p = length inn)) in E; [exact E| |reflexivity].
    intros a x x' Hx Ex. apply Hf in Ex. congruence.
  Qed.
  Lemma inplace_scatters d len r ri tws b s y : keeps_inplace d -> 1 <= len -> length b = len -> (N.of_nat len < span)%N ->
    raders_inplace_run Release d len r ri tws b s = Ok y -> exists x, walk (step_or_stop Release ri len) (len - 1) 1 = Ok x.
  Proof.
    intros K L1 Lb U E. unfold raders_inplace_run in E. destruct b as [|b0 b]; [discriminate|]. cbv zeta in E. simpl in Lb.
    rewrite wsub_usub in E by lia. unfold usub in E. destruct (Nat.leb_spec 1 len); [|lia]. cbn [bind] in E.
    destruct (Nat.le_gt_cases (len - 1) (length s)) as [L|L]; [|unfold split_at in E; destruct (Nat.leb_spec (len - 1) (length s)); [lia|discriminate]].
    rewrite split_at_ok in E by lia. cbn [bind] in E. apply bind_inv in E. destruct E as ([inn1 k1] & Eg & E).
    apply gather_walk in Eg. destruct Eg as [_ Eg]. simpl in Eg. rewrite firstn_length, Nat.min_l in Eg by lia.
    apply bind_inv in E. destruct E as ([[i2 b2] e2] & E2 & E). apply run_inner_keeps in E2; [|auto]. simpl in E2.
    apply bind_inv in E. destruct E as (v0 & _ & E). apply bind_inv in E. destruct E as (t0 & _ & E).
    apply bind_inv in E. destruct E as (i3 & E3 & E). apply set_keeps in E3.
    apply bind_inv in E. destruct E as (i4 & E4 & E). apply mul_keeps in E4.
    2:{ intros i x x' Ex. do 4 (apply bind_inv in Ex; destruct Ex as (? & _ & Ex)). apply bind_inv in Ex. destruct Ex as (y1 & Ex1 & Ex).
        apply set_keeps in Ex, Ex1. congruence. }
    apply bind_inv in E. destruct E as (i5 & E5 & E).
    assert (L5 : length i5 = length i4).
    { destruct (_ =? 0); [|now injection E5 as <-]. do 2 (apply bind_inv in E5; destruct E5 as (? & _ & E5)). now apply set_keeps in E5. }
    apply bind_inv in E. destruct E as (v1 & _ & E). apply bind_inv in E. destruct E as (i6 & E6 & E). apply set_keeps in E6.
    apply bind_inv in E. destruct E as ([[i7 b7] e7] & E7 & E). apply run_inner_keeps in E7; [|auto]. simpl in E7.
    apply bind_inv in E. destruct E as (z & Ez & _). apply scatter_walk in Ez; [|lia].
    replace (len - 1) with (length i7) by lia. exact Ez.
  Qed.
  Lemma oop_scatters d len r ri tws i o s y : keeps_inplace d -> length i = len -> length o = len -> (N.of_nat len < span)%N ->
    raders_oop_run Release d len r ri tws i o s = Ok y -> exists x, walk (step_or_stop Release ri len) (len - 1) 1 = Ok x.
  Proof.
    intros K Li Lo U E. unfold raders_oop_run in E. destruct o as [|o0 o]; [discriminate|]. destruct i as [|i0 i]; [discriminate|]. simpl in Li, Lo.
    apply bind_inv in E. destruct E as ([o1 k1] & Eg & E). apply gather_walk in Eg. destruct Eg as [_ Eg]. simpl in Eg.
    apply bind_inv in E. destruct E as ([[o2 i2] s2] & E2 & E). apply run_inner_keeps in E2; [|auto]. simpl in E2.
    apply bind_inv in E. destruct E as (v0 & _ & E). apply bind_inv in E. destruct E as (t0 & _ & E).
    apply bind_inv in E. destruct E as (i3 & E3 & E). apply set_keeps in E3.
    apply bind_inv in E. destruct E as (i4 & E4 & E). apply mul_keeps in E4.
    2:{ intros j x x' Ex. do 4 (apply bind_inv in Ex; destruct Ex as (? & _ & Ex)). apply bind_inv in Ex. destruct Ex as (y1 & Ex1 & Ex).
        apply set_keeps in Ex, Ex1. congruence. }
    apply bind_inv in E. destruct E as (i5 & E5 & E).
    assert (L5 : length i5 = length i4).
    { destruct (_ =? 0); [|now injection E5 as <-]. do 2 (apply bind_inv in E5; destruct E5 as (? & _ & E5)). now apply set_keeps in E5. }
    apply bind_inv in E. destruct E as (v1 & _ & E). apply bind_inv in E. destruct E as (i6 & E6 & E). apply set_keeps in E6.
    apply bind_inv in E. destruct E as ([[i7 o7] s7] & E7 & E). apply run_inner_keeps in E7; [|auto]. simpl in E7.
    apply bind_inv in E. destruct E as (z & Ez & _). apply scatter_walk in Ez; [|lia].
    replace (len - 1) with (length i7) by lia. exact Ez.
  Qed.

  (** what the constructor returns *)
  Lemma raders_run_inv m size d D : (N.of_nat (dht_len d) + 1 < span / 2)%N -> raders_run m size d = Ok D ->
    exists r ri tws s, raders_roots m (dht_len d + 1) = Ok (r, ri) /\
      (exists x, walk (fun i => index_step m i ri (dht_len d + 1)) (dht_len d + 1 - 1) 1 = Ok x) /\ miller_rabin (N.of_nat (dht_len d + 1)) = true /\
      D = boilerplate_dht (dht_len d + 1) s (raders_extra d) (raders_inplace_run m d (dht_len d + 1) r ri tws) (raders_oop_run m d (dht_len d + 1) r ri tws) /\
      (exists u v, dht_process d u = Ok v /\ length u = dht_len d /\ raders_twiddles_run m v = Ok tws) /\ uadd m (dht_len d) (raders_extra d) = Ok s.
  Proof.
    intros U E. pose proof U as U'. rewrite half_span in U'. unfold raders_run in E. cbv zeta in E. rewrite uadd_fits in E by (unfold in_word; wnum). cbn [bind] in E.
    apply bind_inv in E. destruct E as (u & Em & E). apply bind_inv in E. destruct E as ([r ri] & Er & E).
    rewrite raders_roots_same in Er by lia. apply bind_inv in E. destruct E as (u1 & _ & E).
    apply bind_inv in E. destruct E as (tin & Et & E). pose proof (table_length _ _ _ _ Et) as Lt. apply table_walk in Et. apply bind_inv in E. destruct E as (u2 & _ & E).
    apply bind_inv in E. destruct E as (x & Ex & E). apply bind_inv in E. destruct E as (tl & _ & E). apply bind_inv in E. destruct E as (u3 & _ & E).
    apply bind_inv in E. destruct E as (tws & Etw & E). apply bind_inv in E. destruct E as (sl & Es & E). injection E as <-.
    exists r, ri, tws, sl. split; [exact Er|]. split; [exact Et|]. split.
    - unfold rassert in Em. destruct (miller_rabin _); [reflexivity|discriminate].
    - split; [reflexivity|]. split; [|exact Es]. exists tin, x. split; [exact Ex|]. split; [lia|exact Etw].
  Qed.

  Lemma roots_of m p r s : nprime (N.of_nat p) -> 3 <= p -> (N.of_nat p <= 2 ^ 32)%N -> primitive_root m (N.of_nat p) = Ok (Some (N.of_nat r)) ->
    s < p -> (r * s) mod p = 1 -> raders_roots m p = Ok (r, s) /\ no_small_order p r /\ no_small_order p s /\ 2 <= r < p.
  Proof.
    intros P P3 Pu Er Ls I. destruct (raders_roots_ok m p P P3 Pu) as (r' & s' & E & R & S' & O & O' & I').
    assert (Hr : r' = r) by (eapply root_first; eauto).
    subst r'. assert (s' = s); [|now subst s'].
    assert (Sp : std_prime p) by (apply nprime_nat in P; now rewrite Nat2N.id in P).
    rewrite <- (Nat.mod_small s' p), <- (Nat.mod_small s p) by lia.
    assert (A : (s' * (r * s)) mod p = s' mod p) by (rewrite Nat.mul_mod, I, Nat.mul_1_r, Nat.mod_mod; lia).
    assert (B : (s' * (r * s)) mod p = s mod p).
    { replace (s' * (r * s)) with (s * (r * s')) by ring. rewrite Nat.mul_mod, I', Nat.mul_1_r, Nat.mod_mod; lia. }
    congruence.
  Qed.
  Lemma std_of p : nprime (N.of_nat p) -> std_prime p.
  Proof. intros P. apply nprime_nat in P. now rewrite Nat2N.id in P. Qed.

  Lemma for_each_panics {A St} (l : list A) (body : A -> St -> res St) : (forall a s, body a s = Panic \/ exists s', body a s = Ok s') ->
    forall s, for_each l body s = Panic \/ exists s', for_each l body s = Ok s'.
  Proof.
    intros Hb. induction l as [|a l IH]; intros s; cbn [for_each]; [eauto|]. destruct (Hb a s) as [->|[s' ->]]; cbn [bind]; auto.
  Qed.
  Lemma inner_input_panics m len ri : (raders_inner_input m len ri : res (list T)) = Panic \/ exists v, (raders_inner_input m len ri : res (list T)) = Ok v.
  Proof.
    unfold raders_inner_input, for_range.
    match goal with |- context [for_each ?l ?b ?s0] => enough (H : forall a s, b a s = Panic \/ exists s', b a s = Ok s');
      [destruct (for_each_panics l b H s0) as [->|[[v k] ->]]; cbn [bind]; eauto|] end.
    intros j [x k]. unfold set. destruct (_ <? _); cbn [bind]; [|auto]. unfold index_step, usize.
    destruct (_ <? _)%N; cbn [bind]; [eauto|]. destruct m; cbn [bind]; eauto.
  Qed.
  Lemma debug_new size d r s : let p := dht_len d + 1 in nprime (N.of_nat p) -> 3 <= p -> (N.of_nat p <= 2 ^ 32)%N -> (N.of_nat p < span / 2)%N ->
    primitive_root Debug (N.of_nat p) = Ok (Some (N.of_nat r)) -> s < p -> (r * s) mod p = 1 -> (span <= N.of_nat (p - 1) * N.of_nat s)%N ->
    raders_run Debug size d = Panic.
  Proof.
    intros p P P3 Pu U Er Ls I O. destruct (roots_of Debug p r s P P3 Pu Er Ls I) as (E & _ & Os & _).
    pose proof U as U'. rewrite half_span in U'. unfold raders_run. cbv zeta. rewrite uadd_fits by (unfold in_word; wnum). cbn [bind]. fold p.
    rewrite (proj2 (miller_rabin_ok (N.of_nat p)) P). cbn [rassert bind]. rewrite raders_roots_same, E by lia. cbn [bind].
    unfold alloc at 1. unfold rassert. destruct (_ <=? _)%N; [|reflexivity]. cbn [bind].
    destruct (raders_inner_input Debug p s) as [v| | |] eqn:Ei; [|reflexivity|exfalso|exfalso].
    - exfalso. apply table_walk in Ei. destruct Ei as [x Ei]. revert Ei. apply walk_overflows; try lia. apply order_generates; auto using std_of.
    - destruct (inner_input_panics Debug p s) as [Z|[v Z]]; congruence.
    - destruct (inner_input_panics Debug p s) as [Z|[v Z]]; congruence.
  Qed.
  Lemma debug_process size d D r : let p := dht_len d + 1 in nprime (N.of_nat p) -> 3 <= p -> (N.of_nat p <= 2 ^ 32)%N -> (N.of_nat p < span / 2)%N ->
    primitive_root Debug (N.of_nat p) = Ok (Some (N.of_nat r)) -> (span <= N.of_nat (p - 1) * N.of_nat r)%N ->
    raders_run Debug size d = Ok D -> never_returns D.
  Proof.
    intros p P P3 Pu U Er O E. apply raders_run_inv in E; [|unfold p in U; lia]. destruct E as (r' & ri & tws & s & E & _ & _ & -> & _). fold p in E |- *.
    destruct (raders_roots_ok Debug p P P3 Pu) as (r2 & s2 & E2 & _ & _ & Or & _ & _).
    assert (r' = r) by (eapply root_first; eauto).
    subst r'. assert (r2 = r) by congruence. subst r2. pose proof (order_generates p r (std_of p P) Or) as G.
    apply boilerplate_never; [lia| |].
    - intros c scr y _ _ Ey. apply inplace_gathers in Ey; [|lia]. destruct Ey as [x Ex]. revert Ex. apply walk_overflows; auto; lia.
    - intros i u scr y _ Lu _ Ey. apply oop_gathers in Ey. destruct Ey as [x Ex]. revert Ex. apply walk_overflows; auto; lia.
  Qed.
  Lemma release_process size d D : safe_rust d -> (N.of_nat (dht_len d) + 1 < span / 2)%N -> raders_run Release size d = Ok D ->
    (forall r s x, raders_roots Release (dht_len d + 1) = Ok (r, s) -> walk (step_or_stop Release s (dht_len d + 1)) (dht_len d) 1 <> Ok x) -> never_returns D.
  Proof.
    intros Sd U E N. pose proof U as U'. rewrite half_span in U'. pose proof (span_unit (W := W)).
    apply raders_run_inv in E; [|exact U]. destruct E as (r & ri & tws & s & E & _ & _ & -> & _).
    assert (Q : forall x, walk (step_or_stop Release ri (dht_len d + 1)) (dht_len d + 1 - 1) 1 <> Ok x).
    { intros x. rewrite Nat.add_sub. now apply (N r ri). }
    apply boilerplate_never; [lia| |].
    - intros c scr y Lc _ Ey. apply inplace_scatters in Ey; [|now apply safe_keeps|lia|exact Lc|lia]. destruct Ey as [x Ex]. exact (Q x Ex).
    - intros i u scr y Li Lu _ Ey. apply oop_scatters in Ey; [|now apply safe_keeps|exact Li|exact Lu|lia]. destruct Ey as [x Ex]. exact (Q x Ex).
  Qed.

  (** a release build returns an instance *)
  Lemma inner_input_release len ri : exists v, (raders_inner_input Release len ri : res (list T)) = Ok v /\ length v = len - 1.
  Proof.
    unfold raders_inner_input. cbv zeta.
    match goal with |- context [for_range ?lo ?hi ?b ?s0] =>
      destruct (for_range_inv (fun j '(o, i) => length (o : list T) = len - 1) lo hi b s0) as ([o i] & E & L) end.
    - lia.
    - now rewrite repeat_length.
    - intros j [o i] Hj L. rewrite set_ok by lia. cbn [bind]. unfold index_step, usize.
      destruct (_ <? _)%N; cbn [bind]; (eexists; split; [reflexivity|]); cbv beta iota; now rewrite upd_length.
    - rewrite E. cbn [bind]. eauto.
  Qed.
  Lemma release_new size d f r s : let p := dht_len d + 1 in dht_ok d f -> nprime (N.of_nat p) -> 3 <= p -> (N.of_nat p <= 2 ^ 32)%N ->
    (4 <= size)%N -> (N.of_nat p * size <= unit_of W)%N -> (N.of_nat (dht_inplace_scratch d) * size <= unit_of W)%N ->
    raders_roots Release p = Ok (r, s) -> exists D, raders_run Release size d = Ok D /\ dht_len D = p.
  Proof.
    intros p Hd P P3 Pu S4 B1 B2 Er. pose proof (unit_big W) as Ub. pose proof (std_of p P) as Sp.
    assert (Hb : (4 * N.of_nat p <= unit_of W)%N) by nia. assert (Hc : (4 * N.of_nat (dht_inplace_scratch d) <= unit_of W)%N) by nia.
    assert (Hp : p = dht_len d + 1) by reflexivity. assert (Hh : (span / 2 = 8 * unit_of W)%N) by apply half_span.
    assert (Hs : (span = 16 * unit_of W)%N) by apply span_unit.
    unfold raders_run. cbv zeta. rewrite uadd_fits by (unfold in_word; lia). cbn [bind]. fold p.
    rewrite (proj2 (miller_rabin_ok (N.of_nat p)) P). cbn [rassert bind]. rewrite raders_roots_same, Er by lia. cbn [bind].
    assert (A : forall b n, (N.of_nat n * b <= 4 * unit_of W)%N -> alloc b n = Ok tt).
    { intros b n Hn. unfold alloc. destruct (N.leb_spec (N.of_nat n * b) (span / 2 - 1)); [reflexivity|lia]. }
    rewrite A by nia. cbn [bind]. destruct (inner_input_release p s) as (v & Ev & Lv). rewrite Ev. cbn [bind].
    rewrite A by nia. cbn [bind]. rewrite (dht_process_ok d f) by (auto; lia). cbn [bind].
    assert (Lf : length (f v) = p - 1) by (rewrite (ok_len _ _ Hd); lia). rewrite Lf.
    pose proof (Nat.div_le_upper_bound (p - 1) 2 (p - 1) ltac:(lia) ltac:(lia)) as Hd2.
    rewrite uadd_fits by (unfold in_word; lia). cbn [bind]. rewrite A by nia. cbn [bind].
    rewrite raders_twiddles_same. destruct (raders_roots_ok Release p P P3 Pu) as (r2 & s2 & E2 & R2 & S2 & _). 
    rewrite (raders_twiddles_ok p r2 s2 P3 (odd_prime_even p Sp P3)) by (auto; lia). cbn [bind].
    rewrite uadd_fits; [cbn [bind]; eexists; split; [reflexivity|reflexivity]|].
    unfold in_word. destruct (_ <=? dht_len d); lia.
  Qed.
End Word.
