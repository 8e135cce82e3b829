(** * Whole instances and compositions on machine arithmetic *)
From Verif Require Export ProcProof Euclid NewTree.
From Verif Require Import Lemmas Safety PropsSafetyProof Radix4Proof RadersContract.
From Coq Require Import NArith Lia FunctionalExtensionality.

Local Open Scope nat_scope.

Section Raders.
  Context {W : width} {T : Type} {NT : Num T}.
  Variable m : profile.

  Lemma raders_twiddles_same (l : list T) : raders_twiddles_run m l = raders_twiddles l.
  Proof.
    unfold raders_twiddles_run, raders_twiddles. cbv zeta. apply bind_ext1. intros a0 _. apply bind_ext1. intros t _.
    apply bind_ext; [|reflexivity]. apply for_range_ext. intros i s Hi. assert (length l / 2 <= length l) by (apply Nat.div_le_upper_bound; lia).
    rewrite wsub_usub by lia. reflexivity.
  Qed.
  Lemma run_inner_keeps (d : Dht T) (c : bool) x b e r : keeps_inplace d ->
    (if c then '(i, e') <- dht_process_with_scratch d x e ;; Ok (i, b, e')
     else '(i, b') <- dht_process_with_scratch d x b ;; Ok (i, b', e)) = Ok r ->
    length (fst (fst r)) = length x /\ length (snd (fst r)) = length b /\ length (snd r) = length e.
  Proof.
    intros K E. destruct c; apply bind_inv in E; destruct E as ([u v] & E & [= <-]); apply K in E; simpl; lia.
  Qed.
  Lemma set_keeps (l l' : list T) i v : set l i v = Ok l' -> length l' = length l.
  Proof. unfold set. destruct (i <? length l); [intros [= <-]; apply upd_length|discriminate]. Qed.
  Lemma for_each_keeps {A S} (I : S -> Prop) (l : list A) body : (forall a s s', I s -> body a s = Ok s' -> I s') ->
    forall s s', I s -> for_each l body s = Ok s' -> I s'.
  Proof.
    intros Hb. induction l as [|a l IH]; intros s s' Is E; simpl in E; [now injection E as <-|].
    apply bind_inv in E. destruct E as (s1 & E1 & E). eauto.
  Qed.

  Lemma scatter_same (l : list T) r len : index_fit len r -> 1 < len -> r <= len -> forall (buf : list T), in_word (length buf) ->
    for_each l (fun x '(buf, k) => j <- wsub m k 1 ;; buf <- set buf j x ;; k <- index_step m k r len ;; Ok (buf, k)) (buf, 1) =
    for_each l (fun x '(buf, k) => j <- usub k 1 ;; buf <- set buf j x ;; k <- mul_mod m k r len ;; Ok (buf, k)) (buf, 1).
  Proof.
    intros Fi L R buf F. apply (for_each_ext_inv (fun p => in_word (length (fst p)) /\ snd p < len)); [split; [exact F|exact L]|].
    intros x [b k] _ [Fb Hk]. simpl in Fb, Hk. split.
    - rewrite wrapped_set by auto. now rewrite (index_step_same m len).
    - intros s' E. apply bind_inv in E. destruct E as (j & _ & E). apply bind_inv in E. destruct E as (b' & Es & E).
      apply bind_inv in E. destruct E as (k' & Ek & [= <-]). apply set_keeps in Es. simpl. rewrite Es. split; auto.
      eapply index_step_lt; [|exact Ek]. lia.
  Qed.
  Lemma gather_index_same (inp : list T) r len n : index_fit len r -> 1 < len -> r <= len -> in_word (length inp) -> forall (out : list T),
    for_range 0 n (fun j '(out, k) => i <- wsub m k 1 ;; v <- idx inp i ;; out <- set out j v ;; k <- index_step m k r len ;; Ok (out, k)) (out, 1) =
    for_range 0 n (fun j '(out, k) => i <- usub k 1 ;; v <- idx inp i ;; out <- set out j v ;; k <- mul_mod m k r len ;; Ok (out, k)) (out, 1).
  Proof.
    intros Fi L R F out. apply (for_range_ext_inv (fun p => snd p < len)); [exact L|].
    intros j [o k] _ Hk. simpl in Hk. split.
    - rewrite wrapped_idx by auto. now rewrite (index_step_same m len).
    - intros s' E. apply bind_inv in E. destruct E as (i & _ & E). apply bind_inv in E. destruct E as (v & _ & E).
      apply bind_inv in E. destruct E as (o' & _ & E). apply bind_inv in E. destruct E as (k' & Ek & [= <-]). simpl.
      eapply index_step_lt; [|exact Ek]. lia.
  Qed.

  Lemma raders_inplace_same (d : Dht T) len r ri tws b s : keeps_inplace d -> index_fit len r -> index_fit len ri -> 1 < len -> r <= len -> ri <= len -> in_word (length b) ->
    raders_inplace_run m d len r ri tws b s = raders_inplace m d len r ri tws b s.
  Proof.
    intros K Fi Fj Hl Hr Hi F. unfold raders_inplace_run, raders_inplace. destruct b as [|b0 b]; [reflexivity|]. cbv zeta.
    assert (F' : in_word (length b)) by (eapply fits_le; [|exact F]; simpl; lia).
    rewrite wsub_usub by lia. apply bind_ext1. intros n _. apply bind_ext1. intros [inn ex] _. apply bind_ext.
    { now apply gather_index_same. }
    intros [inn1 k1] _. apply bind_ext1. intros [[i2 b2] e2] E2. apply run_inner_keeps in E2; [|auto]. simpl in E2.
    apply bind_ext1. intros v0 _. apply bind_ext1. intros t0 _. apply bind_ext1. intros i3 _. apply bind_ext.
    { apply for_range_ext. intros j x Hj. assert (length i3 / 2 <= length i3) by (apply Nat.div_le_upper_bound; lia). rewrite wsub_usub by lia. reflexivity. }
    intros i4 _. apply bind_ext1. intros i5 _. apply bind_ext1. intros v1 _. apply bind_ext1. intros i6 _.
    apply bind_ext1. intros [[i7 b7] e7] E7. apply run_inner_keeps in E7; [|auto]. simpl in E7.
    apply bind_ext; [|reflexivity]. apply scatter_same; auto. destruct E7 as (_ & -> & _). destruct E2 as (_ & -> & _). exact F'.
  Qed.
  Lemma raders_oop_same (d : Dht T) len r ri tws i o s : keeps_inplace d -> index_fit len r -> index_fit len ri -> 1 < len -> r <= len -> ri <= len -> in_word (length i) -> in_word (length o) ->
    raders_oop_run m d len r ri tws i o s = raders_oop m d len r ri tws i o s.
  Proof.
    intros K Fx Fy Hl Hr Hi Fi Fo. unfold raders_oop_run, raders_oop. destruct o as [|o0 o]; [reflexivity|]. destruct i as [|i0 i]; [reflexivity|].
    assert (Fi' : in_word (length i)) by (eapply fits_le; [|exact Fi]; simpl; lia).
    assert (Fo' : in_word (length o)) by (eapply fits_le; [|exact Fo]; simpl; lia).
    apply bind_ext.
    { now apply gather_index_same. }
    intros [o1 k1] E1.
    assert (L1 : length o1 = length o).
    { eapply (for_each_keeps (fun p : list T * nat => length (fst p) = length o)) in E1; [exact E1| |reflexivity].
      intros j [x k] s' Hx E. simpl in Hx. apply bind_inv in E. destruct E as (j' & _ & E). apply bind_inv in E. destruct E as (v & _ & E).
      apply bind_inv in E. destruct E as (b' & Es & E). apply bind_inv in E. destruct E as (k' & _ & [= <-]). apply set_keeps in Es. simpl. congruence. }
    apply bind_ext1. intros [[o2 i2] s2] E2. apply run_inner_keeps in E2; [|auto]. simpl in E2.
    apply bind_ext1. intros v0 _. apply bind_ext1. intros t0 _. apply bind_ext1. intros i3 _. apply bind_ext.
    { apply for_range_ext. intros j x Hj. assert (length o2 / 2 <= length o2) by (apply Nat.div_le_upper_bound; lia). rewrite wsub_usub by lia. reflexivity. }
    intros i4 _. apply bind_ext1. intros i5 _. apply bind_ext1. intros v1 _. apply bind_ext1. intros i6 _.
    apply bind_ext1. intros [[i7 o7] s7] E7. apply run_inner_keeps in E7; [|auto]. simpl in E7.
    apply bind_ext; [|reflexivity]. apply scatter_same; auto. destruct E7 as (_ & -> & _). destruct E2 as (-> & _). now rewrite L1.
  Qed.
End Raders.

Section Chunks.
  Context {T S : Type}.
  Variables (n : nat) (I : S -> Prop).
  Lemma iter_chunks_go_ext (f g : list T -> S -> res (list T * S)) :
    (forall c st, length c = n -> I st -> f c st = g c st /\ forall c' st', g c st = Ok (c', st') -> I st') ->
    forall fuel b st, I st -> iter_chunks_go fuel n f b st = iter_chunks_go fuel n g b st.
  Proof.
    intros Hf. induction fuel as [|fuel IH]; intros b st Is; [reflexivity|]. simpl. destruct (Nat.leb_spec n (length b)); [|reflexivity].
    apply bind_ext1. intros [hd tl] E. unfold split_at in E. destruct (Nat.leb_spec n (length b)); [|lia]. injection E as <- <-.
    destruct (Hf (firstn n b) st) as [Ef K]; [rewrite firstn_length; lia|auto|]. apply bind_ext; [exact Ef|]. intros [c' st'] E'.
    apply bind_ext; [|reflexivity]. apply IH. eauto.
  Qed.
  Lemma iter_zipped_go_ext (f g : list T -> list T -> S -> res (list T * list T * S)) :
    (forall c1 c2 st, length c1 = n -> length c2 = n -> I st -> f c1 c2 st = g c1 c2 st /\ forall c1' c2' st', g c1 c2 st = Ok (c1', c2', st') -> I st') ->
    forall fuel u b1 b2 st, I st -> iter_chunks_zipped_go fuel n f u b1 b2 st = iter_chunks_zipped_go fuel n g u b1 b2 st.
  Proof.
    intros Hf. induction fuel as [|fuel IH]; intros u b1 b2 st Is; [reflexivity|]. simpl.
    destruct (Nat.leb_spec n (length b1)) as [L1|L1]; [|reflexivity]. destruct (Nat.leb_spec n (length b2)) as [L2|L2]; [|reflexivity]. cbn [andb].
    apply bind_ext1. intros [hd tl] E. unfold split_at in E. destruct (Nat.leb_spec n (length b1)); [|lia]. injection E as <- <-.
    apply bind_ext1. intros [hd tl] E. unfold split_at in E. destruct (Nat.leb_spec n (length b2)); [|lia]. injection E as <- <-.
    destruct (Hf (firstn n b1) (firstn n b2) st) as [Ef K]; [rewrite firstn_length; lia|rewrite firstn_length; lia|auto|].
    apply bind_ext; [exact Ef|]. intros [[c' c2'] st'] E'. apply bind_ext; [|reflexivity]. apply IH. eauto.
  Qed.
  Lemma iter_zipped_ext (f g : list T -> list T -> S -> res (list T * list T * S)) b1 b2 st :
    (forall c1 c2 st, length c1 = n -> length c2 = n -> I st -> f c1 c2 st = g c1 c2 st /\ forall c1' c2' st', g c1 c2 st = Ok (c1', c2', st') -> I st') ->
    I st -> iter_chunks_zipped b1 b2 n f st = iter_chunks_zipped b1 b2 n g st.
  Proof.
    intros Hf Is. unfold iter_chunks_zipped. destruct (length b2 <? length b1).
    - apply bind_ext1. intros [x y] _. apply bind_ext; [|reflexivity]. now apply iter_zipped_go_ext.
    - now apply iter_zipped_go_ext.
  Qed.
End Chunks.

Section Macros.
  Context {T : Type} {NT : Num T}.
  Lemma boilerplate_ext n s o (f f' : list T -> list T -> res (list T * list T)) g g' :
    (forall c scr, length c = n -> f c scr = f' c scr) ->
    (forall i u scr, length i = n -> length u = n -> g i u scr = g' i u scr) ->
    boilerplate_dht n s o f g = boilerplate_dht n s o f' g'.
  Proof.
    intros Hf Hg. unfold boilerplate_dht. f_equal.
    - apply functional_extensionality. intros b. apply functional_extensionality. intros scr.
      destruct (n =? 0); [reflexivity|]. destruct (_ || _); [reflexivity|]. apply bind_ext1. intros [x y] _. apply bind_ext; [|reflexivity].
      apply (iter_chunks_go_ext n (fun _ => True)); auto.
    - apply functional_extensionality. intros b. apply functional_extensionality. intros u. apply functional_extensionality. intros scr.
      destruct (n =? 0); [reflexivity|]. destruct (_ || _); [reflexivity|]. apply bind_ext1. intros [x y] _. apply bind_ext; [|reflexivity].
      apply (iter_zipped_ext n (fun _ => True)); auto.
  Qed.
  Lemma boilerplate_oop_ext n (f f' : list T -> list T -> res (list T)) :
    (forall c u, length c = n -> length u = n -> f c u = f' c u) ->
    (forall c u u', f' c u = Ok u' -> length u' = length u) ->
    boilerplate_dht_oop n f = boilerplate_dht_oop n f'.
  Proof.
    intros Hf Hk. unfold boilerplate_dht_oop. f_equal.
    - apply functional_extensionality. intros b. apply functional_extensionality. intros scr.
      destruct (n =? 0); [reflexivity|]. destruct (_ || _); [reflexivity|]. apply bind_ext1. intros [x y] E.
      assert (Lx : length x = n).
      { unfold split_at in E. destruct (Nat.leb_spec n (length scr)); [|discriminate]. injection E as <- <-. rewrite firstn_length. lia. }
      apply bind_ext; [|reflexivity]. apply (iter_chunks_go_ext n (fun st => length st = n)); [|exact Lx].
      intros c st Lc Ls. rewrite Hf by auto. split; [reflexivity|]. intros c' st' E'. apply bind_inv in E'. destruct E' as (u & Eu & E').
      apply bind_inv in E'. destruct E' as (v & _ & [= <- <-]). rewrite (Hk _ _ _ Eu). exact Ls.
    - apply functional_extensionality. intros b. apply functional_extensionality. intros u. apply functional_extensionality. intros scr.
      destruct (n =? 0); [reflexivity|]. destruct (_ || _); [reflexivity|]. apply bind_ext; [|reflexivity].
      apply (iter_zipped_ext n (fun _ => True)); auto. intros. split; [|auto]. now rewrite Hf.
  Qed.
  Lemma naive_keeps (tw i o o' : list T) : naive_perform tw i o = Ok o' -> length o' = length o.
  Proof.
    intros E. unfold naive_perform, for_range in E. eapply (for_each_keeps (fun p => length p = length o)) in E; [exact E| |reflexivity].
    intros a s s' Hs E'. apply bind_inv in E'. destruct E' as ([v k] & _ & E'). apply set_keeps in E'. lia.
  Qed.
End Macros.

Section Constructors.
  Context {W : width} {T : Type} {NT : Num T}.
  Variables (m : profile) (size : N).
  Hypothesis S4 : (4 <= size)%N.

  Lemma naive_run_same n : @naive_run W T NT m size n = naive_new size n.
  Proof.
    unfold naive_run, naive_new. apply bind_ext1. intros u A. f_equal. unfold dht_naive. cbv zeta.
    pose proof (alloc_le _ _ _ 4 A S4) as B.
    assert (L : length (naive_twiddles n : list T) = n) by (unfold naive_twiddles; now rewrite map_length, seq_length).
    rewrite L. apply boilerplate_oop_ext.
    - intros c o Lc Lo. apply naive_same. unfold in_word. rewrite L, Lo. wnum.
    - intros c o o'. apply naive_keeps.
  Qed.

  Lemma room_fits k h : (N.of_nat (k * h) * size <= 6 * most + 6 * size)%N -> (k <= 6) -> in_word (k * h + k).
  Proof. unfold in_word. intros B K. word. nia. Qed.

  Lemma nxn_run_same k cap tab ap ap' (d : Dht T) : 0 < k ->
    (forall D, nxn_new m size k cap tab ap' d = Ok D -> in_word (k * dht_len d + k) /\ dht_len D = k * dht_len d) ->
    (in_word (dht_len d + 1) -> forall tws o, ap (dht_len d) tws o = ap' (dht_len d) tws o) ->
    nxn_run m size k cap tab ap d = nxn_new m size k cap tab ap' d.
  Proof.
    intros K B Ha. unfold nxn_run, nxn_new in *. cbv zeta in *. apply bind_ext1. intros len E1. rewrite E1 in B. cbn [bind] in B.
    apply bind_ext1. intros c E2. rewrite E2 in B. cbn [bind] in B. apply bind_ext1. intros u1 E3. rewrite E3 in B. cbn [bind] in B.
    apply bind_ext1. intros u2 E4. rewrite E4 in B. cbn [bind] in B. apply bind_ext1. intros tws E5. rewrite E5 in B. cbn [bind] in B.
    apply bind_ext1. intros sl E6. rewrite E6 in B. cbn [bind] in B. destruct (B _ eq_refl) as [F _]. f_equal.
    assert (F1 : in_word (dht_len d + 1)) by (eapply fits_le; [|exact F]; nia).
    apply boilerplate_ext; intros.
    - apply nxn_inplace_same; auto.
    - apply nxn_oop_same; auto.
  Qed.
  Lemma two_run_same (d : Dht T) : radix2_run m size d = radix2_new m size d.
  Proof.
    apply nxn_run_same; [lia| |].
    - intros D E. apply (two_len m size ltac:(lia)) in E as [E B]. split; [|auto]. rewrite E in B. apply room_fits; [|lia]. wnum.
    - intros F tws o. now apply apply2_same.
  Qed.
  Lemma three_run_same (d : Dht T) : radix3_run m size d = radix3_new m size d.
  Proof.
    apply nxn_run_same; [lia| |].
    - intros D E. apply (three_len m size ltac:(lia)) in E as [E B]. split; [|auto]. rewrite E in B. apply room_fits; [|lia]. wnum.
    - intros F tws o. now apply apply3_same.
  Qed.
  Lemma four_run_same (d : Dht T) : radix4xn_run m size d = radix4xn_new m size d.
  Proof.
    apply nxn_run_same; [lia| |].
    - intros D E. apply (four_len m size ltac:(lia)) in E as [E B]. split; [|auto]. rewrite E in B. apply room_fits; [|lia]. wnum.
    - intros F tws o. now apply apply4_same.
  Qed.
  Lemma five_run_same (d : Dht T) : radix5_run m size d = radix5_new m size d.
  Proof.
    apply nxn_run_same; [lia| |].
    - intros D E. apply (five_len m size ltac:(lia)) in E as [E B]. split; [|auto]. rewrite E in B. apply room_fits; [|lia]. wnum.
    - intros F tws o. now apply apply5_same.
  Qed.
  Lemma six_run_same (d : Dht T) : radix6_run m size d = radix6_new m size d.
  Proof.
    apply nxn_run_same; [lia| |].
    - intros D E. apply (six_len m size ltac:(lia)) in E as [E B]. split; [|auto]. rewrite E in B. apply room_fits; [|lia]. wnum.
    - intros F tws o. now apply apply6_same.
  Qed.

  Lemma mixed_fits w h rl cl cap u1 u2 : in_word w -> in_word h ->
    uadd m (w / 2) 1 = Ok rl -> uadd m (h / 2) 1 = Ok cl -> umul m rl cl = Ok cap ->
    alloc (2 * size) cap = Ok u1 -> alloc (2 * size) ((rl - 1) * (cl - 1)) = Ok u2 -> in_word (w * h + h + w + 1).
  Proof.
    unfold in_word. intros W1 W2 E0 E1 E2 E3 E4.
    pose proof (half_le w) as Hw. pose proof (half_le h) as Hh. pose proof (half_ge w) as Gw. pose proof (half_ge h) as Gh.
    destruct (uadd_inv _ _ _ _ E0) as [(_ & ->)|(L1 & _)]; [|wnum].
    destruct (uadd_inv _ _ _ _ E1) as [(_ & ->)|(L1 & _)]; [|wnum].
    pose proof (alloc_le _ _ _ 8 E4 ltac:(lia)) as B2. 
    rewrite !Nat.add_sub in B2. rewrite Nat2N.inj_mul in B2.
    set (p := N.of_nat (w / 2)) in *. set (q := N.of_nat (h / 2)) in *.
    assert (C : cap = ((w / 2 + 1) * (h / 2 + 1))%nat).
    { destruct (umul_inv _ _ _ _ E2) as [(_ & ->)|(L1 & _)]; auto. exfalso.
      rewrite !Nat2N.inj_add in L1. fold p q in L1. change (N.of_nat 1) with 1%N in L1.
      destruct (N.eq_dec p 0) as [Z|Z]; [rewrite Z in *; wnum|]. destruct (N.eq_dec q 0) as [Z'|Z']; [rewrite Z' in *; wnum|].
      word. nia. }
    subst cap. pose proof (alloc_le _ _ _ 8 E3 ltac:(lia)) as B1.
    rewrite Nat2N.inj_mul, !Nat2N.inj_add in B1. fold p q in B1. change (N.of_nat 1) with 1%N in B1.
    assert (X : (N.of_nat w * N.of_nat h <= (2 * p + 1) * (2 * q + 1))%N) by (apply N.mul_le_mono; auto).
    rewrite !Nat2N.inj_add, Nat2N.inj_mul. change (N.of_nat 1) with 1%N. word. nia.
  Qed.
  Lemma mixed_run_same (dw dh : Dht T) : in_word (dht_len dw) -> in_word (dht_len dh) -> mixed_run m size dw dh = mixed_new m size dw dh.
  Proof.
    intros W1 W2. unfold mixed_run, mixed_new. cbv zeta. apply bind_ext1. intros len E. apply bind_ext1. intros rl E0. apply bind_ext1. intros cl E1.
    apply bind_ext1. intros cap E2. apply bind_ext1. intros u1 E3. apply bind_ext1. intros u2 E4. apply bind_ext1. intros tws _.
    apply bind_ext1. intros sl _. f_equal. pose proof (mixed_fits _ _ _ _ _ _ _ W1 W2 E0 E1 E2 E3 E4) as F.
    rewrite umul_fits in E by (eapply fits_le; [|exact F]; lia). injection E as <-.
    apply boilerplate_ext; intros; [now apply mixed_inplace_same|now apply mixed_oop_same].
  Qed.
  Lemma safe_keeps (d : Dht T) : safe_rust d -> keeps_inplace d.
  Proof. intros [H _] b s b' s' E. now apply H. Qed.
  Lemma split_run_same (dq dh : Dht T) : safe_rust dq -> safe_rust dh -> split_run m size dq dh = split_new m size dq dh.
  Proof.
    intros Sq Sh. pose proof (split_len m size ltac:(lia) dq dh) as B. unfold split_run, split_new in *. cbv zeta in *.
    apply bind_ext1. intros dbl E1. rewrite E1 in B. cbn [bind] in B. apply bind_ext1. intros u E2. rewrite E2 in B. cbn [bind] in B.
    apply bind_ext1. intros len E3. rewrite E3 in B. cbn [bind] in B. apply bind_ext1. intros tl E4. rewrite E4 in B. cbn [bind] in B.
    apply bind_ext1. intros cap E5. rewrite E5 in B. cbn [bind] in B. apply bind_ext1. intros u2 E6. rewrite E6 in B. cbn [bind] in B.
    apply bind_ext1. intros tws E7. rewrite E7 in B. cbn [bind] in B. destruct (B _ eq_refl) as (_ & _ & F). clear B. f_equal.
    cbn [dht_len boilerplate_dht] in F.
    assert (F' : in_word (len + 1)) by (unfold in_word; word; nia).
    apply boilerplate_ext; intros.
    - now apply split_inplace_same.
    - apply split_oop_same; auto using safe_keeps.
  Qed.
  Lemma radix4_run_same len : @radix4_run W T NT m size len = radix4_new m size len.
  Proof.
    unfold radix4_run, radix4_new. apply bind_ext1. intros u E0. 
    assert (P : exists k, len = 2 ^ k).
    { unfold rassert in E0. destruct (is_power_of_two len) eqn:E; [|discriminate]. now apply is_power_of_two_spec. }
    destruct P as [k ->]. destruct (r4_base_ok (T := T) k) as (db & Eb & _). rewrite Eb.
    apply bind_ext1. intros blk E1. apply bind_ext1. intros u1 E2. apply bind_ext1. intros tws _. f_equal.
    pose proof (alloc_le _ _ _ 8 E2 ltac:(lia)) as B.
    pose proof (r4_len k) as EL.
    assert (PB : 0 < r4_base k) by (unfold r4_base; destruct k as [|[|[|k]]]; try lia; destruct (S (S (S k)) mod 2 =? 1); lia).
    assert (C8 : 8 <= r4_base k * 4 \/ 2 ^ k < r4_base k * 4).
    { unfold r4_base. destruct k as [|[|[|k]]]; simpl (2 ^ _); try lia. destruct (S (S (S k)) mod 2 =? 1); lia. }
    assert (LB : r4_base k <= 2 ^ k) by (rewrite EL; pose proof (Nat.pow_nonzero 4 (r4_layers k)); nia).
    assert (FL : in_word (4 * (2 ^ k))) by (unfold in_word; rewrite Nat2N.inj_mul; change (N.of_nat 4) with 4%N; wnum).
    assert (FB : in_word (4 * (r4_base k * 4))) by (unfold in_word; rewrite !Nat2N.inj_mul; change (N.of_nat 4) with 4%N; wnum).
    assert (O : forall i o scr, radix4_oop_run m (2 ^ k) (r4_base k) db tws i o scr = radix4_oop (2 ^ k) (r4_base k) db tws i o scr).
    { intros i o scr. unfold radix4_oop_run, radix4_oop. apply bind_ext.
      - rewrite EL at 2 4. apply prepare_same; auto. rewrite <- EL. now rewrite Nat.mul_1_r.
      - intros o1 _. apply bind_ext1. intros [o2 e2] _. rewrite umul_fits by (eapply fits_le; [|exact FB]; lia). cbn [bind].
        rewrite cross_same; auto. }
    apply boilerplate_ext; intros; [|apply O].
    unfold radix4_inplace_run, radix4_inplace. apply bind_ext1. intros s1 _. now rewrite O.
  Qed.
  Lemma raders_run_same (d : Dht T) : rader_fits (N.of_nat (dht_len d + 1)) -> (N.of_nat (dht_len d) + 1 < span / 2)%N -> safe_rust d -> raders_run m size d = raders_new m size d.
  Proof.
    intros Fi U Sd. rewrite half_span in U. unfold raders_run, raders_new. cbv zeta. apply bind_ext1. intros len E. apply bind_ext1. intros u E0.
    rewrite uadd_fits in E by (unfold in_word; wnum). injection E as <-.
    rewrite raders_roots_same by (rewrite half_span; lia). apply bind_ext1. intros [r ri] Er.
    assert (Fx : index_fit (dht_len d + 1) r /\ index_fit (dht_len d + 1) ri).
    { apply (roots_fit m); auto; [intros ->; cbn [unit_of] in U; change (2 ^ 32)%N with 4294967296%N; lia|]. unfold rassert in E0. destruct (miller_rabin _); [reflexivity|discriminate]. }
    destruct Fx as [Fx Fy].
    apply roots_range in Er; [|pose proof (unit_top W); lia].
    apply bind_ext1. intros u1 E2. do 4 (apply bind_ext1; intros ? _). apply bind_ext1. intros u2 E4.
    rewrite raders_twiddles_same. apply bind_ext1. intros tws _. apply bind_ext1. intros sl _. apply (f_equal Ok).
    pose proof (alloc_le _ _ _ 4 E2 S4) as B.
    assert (F : in_word (dht_len d + 1)) by (unfold in_word; wnum).
    apply boilerplate_ext; intros.
    - apply raders_inplace_same; auto using safe_keeps; try lia. now rewrite H.
    - apply raders_oop_same; auto using safe_keeps; try lia; [now rewrite H|now rewrite H0].
  Qed.

  Lemma construct_safe t (d : Dht T) : within isize_max size t -> raders_fit t -> construct m size t = Ok d -> safe_rust d.
  Proof.
    intros Hw Fr E. destruct (construct_agrees m size S4 t Hw Fr) as [E'|E']; [|congruence].
    apply (C17_proof m anything); [intros ? []|]. apply (build_any m t). congruence.
  Qed.
  Lemma run_tree_same t : within isize_max size t -> raders_fit t -> @run_tree W T NT m size t = construct m size t.
  Proof.
    induction t; intros Hw Fr; cbn [run_tree construct within raders_fit] in *; destruct Hw as [_ Hw].
    2-10: exact eq_refl.
    all: try (destruct Hw as [W1 W2], Fr as [F1 F2]; rewrite (IHt1 W1 F1); apply bind_ext1; intros d1 E1; rewrite (IHt2 W2 F2); apply bind_ext1; intros d2 E2).
    all: try (assert (Fr' : raders_fit t) by (first [exact Fr|apply Fr]); rewrite (IHt Hw Fr'); apply bind_ext1; intros d E).
    - apply naive_run_same.
    - apply (construct_len m size S4) in E1 as [_ B1]. apply (construct_len m size S4) in E2 as [_ B2].
      apply mixed_run_same; unfold in_word; wnum.
    - apply two_run_same.
    - apply three_run_same.
    - apply four_run_same.
    - apply five_run_same.
    - apply six_run_same.
    - apply split_run_same; [exact (construct_safe _ _ W1 F1 E1)|exact (construct_safe _ _ W2 F2 E2)].
    - apply radix4_run_same.
    - pose proof (construct_len m size S4 _ _ E) as [L B]. apply raders_run_same; [| |exact (construct_safe _ _ Hw Fr' E)].
      + rewrite L. exact (proj2 Fr).
      + rewrite half_span. pose proof (unit_big W). lia.
  Qed.
End Constructors.
