(** * No unchecked access and no endless loop, whatever the inner instances do *)
From Verif Require Import Lemmas NxnProof NxnInst MixedRadixProof MixedContract SplitRadixProof Radix4Proof RadersContract.
From Verif Require Export TreeProof.
From Coq Require Import Lia NArith.

(** [r] performs no unchecked access, loops only if [h] allows it, and a normal result satisfies [P] *)
Definition sf {A} (h : bool) (P : A -> Prop) (r : res A) : Prop :=
  match r with
  | Ok a => P a
  | Panic => True
  | UB => False
  | Hang => h = true
  end.

Section Rules.
  Context {h : bool}.
  Lemma sf_bind {A B} (Q : A -> Prop) (P : B -> Prop) (r : res A) k :
    sf h Q r -> (forall a, Q a -> sf h P (k a)) -> sf h P (bind r k).
  Proof. destruct r; simpl; auto. Qed.
  Lemma sf_weaken {A} (P Q : A -> Prop) r : sf h P r -> (forall a, P a -> Q a) -> sf h Q r.
  Proof. destruct r; simpl; auto. Qed.
  Lemma sf_rassert b : sf h (fun _ => b = true) (rassert b).
  Proof. now destruct b. Qed.
  Lemma sf_usub a b : sf h (fun c => c = a - b /\ b <= a) (usub a b).
  Proof. unfold usub. destruct (Nat.leb_spec b a); simpl; auto. Qed.
  Section T.
    Context {T : Type}.
    Lemma sf_idx (l : list T) i : sf h (fun _ => True) (idx l i).
    Proof. unfold idx. destruct (nth_error l i); simpl; auto. Qed.
    Lemma sf_set (l : list T) i v : sf h (fun l' => length l' = length l) (set l i v).
    Proof. unfold set. destruct (i <? length l); simpl; auto using upd_length. Qed.
    Lemma sf_split_at (l : list T) m : sf h (fun p => length (fst p) = m /\ length (snd p) = length l - m /\ m <= length l) (split_at l m).
    Proof.
      unfold split_at. destruct (Nat.leb_spec m (length l)); simpl; auto.
      rewrite firstn_length, skipn_length. lia.
    Qed.
    Lemma sf_copy (d s : list T) : sf h (fun d' => length d' = length d) (copy_from_slice d s).
    Proof. unfold copy_from_slice. destruct (Nat.eqb_spec (length d) (length s)); simpl; auto. Qed.
  End T.
  Lemma sf_for_each {A S} (I : S -> Prop) (l : list A) body s :
    I s -> (forall a s, I s -> sf h I (body a s)) -> sf h I (for_each l body s).
  Proof.
    intros Is Hb. revert s Is. induction l as [|a l IH]; intros s Is; simpl; auto.
    eapply sf_bind; [apply Hb, Is|]. auto.
  Qed.
  Lemma sf_for_range {S} (I : S -> Prop) lo hi body s :
    I s -> (forall i s, I s -> sf h I (body i s)) -> sf h I (for_range lo hi body s).
  Proof. intros. unfold for_range. apply sf_for_each; auto. Qed.

  Section Iter.
    Context {T S : Type}.
    Variables (n : nat) (I : S -> Prop).
    Hypothesis n_pos : 0 < n.
    Lemma sf_iter_chunks_go fn : (forall c st, length c = n -> I st -> sf h (fun p => length (fst p) = n /\ I (snd p)) (fn c st)) ->
      forall fuel (buf : list T) st, length buf < fuel -> I st ->
      sf h (fun p => length (fst (fst p)) = length buf /\ I (snd (fst p))) (iter_chunks_go fuel n fn buf st).
    Proof.
      intros Hf. induction fuel as [|fuel IH]; intros buf st Hl Is; [lia|]. simpl.
      destruct (Nat.leb_spec n (length buf)); [|simpl; auto].
      eapply sf_bind; [apply sf_split_at|]. intros [hd tl] (L1 & L2 & _). simpl in L1, L2.
      eapply sf_bind; [apply Hf; auto|]. intros [hd' st'] [L3 Is']. simpl in L3, Is'.
      eapply sf_bind; [apply (IH tl st'); [lia|auto]|]. intros [[rest st''] ok] [L4 Is'']. simpl in *.
      rewrite app_length. split; auto. lia.
    Qed.
    Lemma sf_iter_chunks fn (buf : list T) st : (forall c st, length c = n -> I st -> sf h (fun p => length (fst p) = n /\ I (snd p)) (fn c st)) ->
      I st -> sf h (fun p => length (fst (fst p)) = length buf /\ I (snd (fst p))) (iter_chunks buf n fn st).
    Proof. intros. apply sf_iter_chunks_go; auto. Qed.

    Definition zip3 (n1 n2 : nat) (p : list T * list T * S) : Prop :=
      length (fst (fst p)) = n1 /\ length (snd (fst p)) = n2 /\ I (snd p).
    Lemma sf_iter_zipped_go fn : (forall c1 c2 st, length c1 = n -> length c2 = n -> I st -> sf h (zip3 n n) (fn c1 c2 st)) ->
      forall fuel u (b1 b2 : list T) st, length b1 < fuel -> I st ->
      sf h (fun p => zip3 (length b1) (length b2) (fst p)) (iter_chunks_zipped_go fuel n fn u b1 b2 st).
    Proof.
      intros Hf. induction fuel as [|fuel IH]; intros u b1 b2 st Hl Is; [lia|]. simpl.
      destruct (Nat.leb_spec n (length b1)); [|now repeat split].
      destruct (Nat.leb_spec n (length b2)); [|now repeat split]. simpl andb. cbv iota.
      eapply sf_bind; [apply sf_split_at|]. intros [hd tl] (L1 & L2 & _). simpl in L1, L2.
      eapply sf_bind; [apply sf_split_at|]. intros [hd2 tl2] (M1 & M2 & _). simpl in M1, M2.
      eapply sf_bind; [apply Hf; auto|]. intros [[hd' hd2'] st'] (L3 & M3 & Is'). simpl in L3, M3, Is'.
      eapply sf_bind; [apply (IH u tl tl2 st'); [lia|auto]|]. intros [[[r1 r2] st''] ok] (L4 & M4 & Is''). simpl in *.
      unfold zip3. simpl. rewrite !app_length. repeat split; auto; lia.
    Qed.
    Lemma sf_iter_zipped fn (b1 b2 : list T) st : length b1 = length b2 ->
      (forall c1 c2 st, length c1 = n -> length c2 = n -> I st -> sf h (zip3 n n) (fn c1 c2 st)) ->
      I st -> sf h (fun p => zip3 (length b1) (length b2) (fst p)) (iter_chunks_zipped b1 b2 n fn st).
    Proof. intros E Hf Is. unfold iter_chunks_zipped. destruct (Nat.ltb_spec (length b2) (length b1)); [lia|]. apply sf_iter_zipped_go; auto. Qed.
  End Iter.
End Rules.

Section Instances.
  Context {T : Type} {NT : Num T}.
  Variable h : bool.

  Definition keeps2 (n1 n2 : nat) (p : list T * list T) : Prop := length (fst p) = n1 /\ length (snd p) = n2.
  Definition keeps3 (n1 n2 n3 : nat) (p : list T * list T * list T) : Prop :=
    length (fst (fst p)) = n1 /\ length (snd (fst p)) = n2 /\ length (snd p) = n3.
  Definition harmless (d : Dht T) : Prop :=
    (forall b s, sf h (keeps2 (length b) (length s)) (dht_process_with_scratch d b s)) /\
    (forall i o s, sf h (keeps3 (length i) (length o) (length s)) (dht_process_oop d i o s)).

  Lemma sf_error_inplace a b c d : sf h (fun _ => True) (dht_error_inplace a b c d).
  Proof.
    unfold dht_error_inplace. do 3 (eapply sf_bind; [apply sf_rassert|intros _ _]).
    eapply sf_weaken; [apply sf_rassert|auto].
  Qed.
  Lemma sf_error_oop a b c d e : sf h (fun _ => True) (dht_error_outofplace a b c d e).
  Proof.
    unfold dht_error_outofplace. do 4 (eapply sf_bind; [apply sf_rassert|intros _ _]).
    eapply sf_weaken; [apply sf_rassert|auto].
  Qed.

  Lemma boilerplate_harmless n s o inplace oop :
    (0 < n -> forall c scr, length c = n -> length scr = s -> sf h (keeps2 n s) (inplace c scr)) ->
    (0 < n -> forall i u scr, length i = n -> length u = n -> length scr = o -> sf h (keeps3 n n o) (oop i u scr)) ->
    harmless (boilerplate_dht n s o inplace oop).
  Proof.
    intros Hi Ho. split.
    - intros b scr. cbn [dht_process_with_scratch boilerplate_dht].
      destruct (Nat.eqb_spec n 0); [now split|].
      destruct ((length scr <? s) || (length b <? n)).
      { eapply sf_bind; [apply sf_error_inplace|]. intros _ _. now split. }
      eapply sf_bind; [apply sf_split_at|]. intros [s1 rest] (L1 & L2 & L3). simpl in L1, L2.
      eapply sf_bind; [apply (sf_iter_chunks n (fun st => length st = s)); [lia|intros c st Lc Ls; apply Hi; auto; lia|auto]|].
      intros [[b' s'] ok] [Lb Ls]. simpl in Lb, Ls.
      assert (K : keeps2 (length b) (length scr) (b', s' ++ rest)) by (split; simpl; [auto|rewrite app_length; lia]).
      destruct ok; [exact K|]. eapply sf_bind; [apply sf_error_inplace|]. intros _ _. exact K.
    - intros i u scr. cbn [dht_process_oop boilerplate_dht].
      destruct (Nat.eqb_spec n 0); [now repeat split|].
      destruct ((length scr <? o) || (length i <? n)); simpl orb; cbv iota.
      { eapply sf_bind; [apply sf_error_oop|]. intros _ _. now repeat split. }
      destruct (Nat.eqb_spec (length u) (length i)) as [E|]; simpl negb; cbv iota.
      2:{ eapply sf_bind; [apply sf_error_oop|]. intros _ _. now repeat split. }
      eapply sf_bind; [apply sf_split_at|]. intros [s1 rest] (L1 & L2 & L3). simpl in L1, L2.
      eapply sf_bind; [apply (sf_iter_zipped n (fun st => length st = o)); [lia|auto| |auto]|].
      { intros c1 c2 st Lc1 Lc2 Ls. apply Ho; auto; lia. }
      intros [[[i' u'] s'] ok] (Li & Lu & Ls). simpl in Li, Lu, Ls.
      assert (K : keeps3 (length i) (length u) (length scr) (i', u', s' ++ rest)) by (repeat split; simpl; auto; rewrite app_length; lia).
      destruct ok; [exact K|]. eapply sf_bind; [apply sf_error_oop|]. intros _ _. exact K.
  Qed.

  (** an instance that meets the contract and checks its arguments *)
  Lemma strict_harmless d f : dht_ok d f -> dht_strict d -> harmless d.
  Proof.
    intros O S. assert (Lf : 0 < dht_len d -> forall m (b : list T), length b = m * dht_len d -> length (map_chunks (dht_len d) f b) = length b).
    { intros Hn m b Lb. rewrite (map_chunks_length _ m); auto. apply (ok_len _ _ O). }
    destruct (Nat.eq_dec (dht_len d) 0) as [Z|Z].
    { destruct (ok_zero _ _ O Z) as [Z1 Z2]. split; intros; rewrite ?Z1, ?Z2; now repeat split. }
    destruct (S ltac:(lia)) as [S1 S2]. split.
    - intros b s.
      assert (D : valid_inplace d b s \/ ~ valid_inplace d b s) by (unfold valid_inplace; lia).
      destruct D as [[V1 [V2 V3]]|V]; [|now rewrite S1].
      destruct (valid_mult (dht_len d) (length b) ltac:(lia) V1 V2) as (m & Hm & Lb).
      destruct (ok_inplace _ _ O ltac:(lia) m b s Hm Lb V3) as (s' & E & L & _). rewrite E. split; simpl; eauto. apply (Lf ltac:(lia) m b Lb).
    - intros i o s.
      assert (D : valid_oop d i o s \/ ~ valid_oop d i o s) by (unfold valid_oop; lia).
      destruct D as [[V0 [V1 [V2 V3]]]|V]; [|now rewrite S2].
      destruct (valid_mult (dht_len d) (length i) ltac:(lia) V1 V2) as (m & Hm & Lb).
      destruct (ok_oop _ _ O ltac:(lia) m i o s Hm Lb ltac:(lia) V3) as (i' & s' & E & L & L' & _). rewrite E.
      repeat split; simpl; auto. rewrite <- V0. apply (Lf ltac:(lia) m i Lb).
  Qed.
  Lemma butterfly1_harmless : harmless butterfly1.
  Proof.
    split; [now split|]. intros i o s. simpl. eapply sf_bind; [apply sf_copy|]. intros o' L. now repeat split.
  Qed.

  Section Inner.
    Variable d : Dht T.
    Hypothesis Hd : harmless d.
    Lemma call_inplace b s n1 n2 : length b = n1 -> length s = n2 -> sf h (keeps2 n1 n2) (dht_process_with_scratch d b s).
    Proof. intros <- <-. apply Hd. Qed.
    Lemma call_oop b o s n1 n2 n3 : length b = n1 -> length o = n2 -> length s = n3 ->
      sf h (keeps3 n1 n2 n3) (dht_process_oop d b o s).
    Proof. intros <- <- <-. apply Hd. Qed.
  End Inner.

  (** ** the Nxn algorithms *)
  Lemma sf_half_rev (i o : list T) k n : 0 < k ->
    sf h (fun o' => length o' = k * n /\ length i = k * n /\ length o = k * n) (transpose_half_rev_out i o k n).
  Proof.
    intros Hk. destruct (Nat.eq_dec (length i) (length o)) as [E|E].
    - destruct (Nat.eq_dec (length i) (k * n)) as [E'|E'].
      + rewrite transpose_half_rev_out_ok by lia. simpl. rewrite tab_length. lia.
      + unfold transpose_half_rev_out, rassert. rewrite (proj2 (Nat.eqb_eq _ _) E), (proj2 (Nat.eqb_neq _ _) E'). exact Logic.I.
    - unfold transpose_half_rev_out, rassert. rewrite (proj2 (Nat.eqb_neq _ _) E). exact Logic.I.
  Qed.
  Lemma nxn_harmless k d apply g : 0 < k -> harmless d ->
    (0 < dht_len d -> forall x, length x = k * dht_len d -> apply x = Ok (g x) /\ length (g x) = k * dht_len d) ->
    harmless (nxn k d apply).
  Proof.
    intros Hk Hd Ha. unfold nxn. cbv zeta. apply boilerplate_harmless.
    - intros Hn c scr Lc Ls. unfold nxn_inplace.
      eapply sf_bind; [apply sf_half_rev; auto|]. intros s1 (L1 & _ & L3).
      eapply sf_bind; [apply (call_oop d Hd); [exact L1|exact Lc|reflexivity]|]. intros [[s2 b2] e2] (M1 & M2 & _). simpl in M1, M2.
      destruct (Ha ltac:(nia) b2 M2) as [E L]. rewrite E. split; simpl; [auto|]. lia.
    - intros Hn i u scr Li Lu Ls. unfold nxn_oop.
      eapply sf_bind; [apply sf_half_rev; auto|]. intros s1 (L1 & _ & _).
      eapply sf_bind; [apply (call_inplace d Hd); [exact L1|exact Li]|]. intros [s2 b2] (M1 & M2). simpl in M1, M2.
      destruct (Ha ltac:(nia) s2 M1) as [E L]. rewrite E. repeat split; simpl; auto.
  Qed.
  Lemma harmless_2xn d : harmless d -> harmless (mixed_radix_2xn d).
  Proof. intros. eapply nxn_harmless; [lia|auto|]. intros. split; [now apply radix2_apply_ok|apply cols_fun_length]. Qed.
  Lemma harmless_3xn d : harmless d -> harmless (mixed_radix_3xn d).
  Proof. intros. eapply nxn_harmless; [lia|auto|]. intros. split; [now apply radix3_apply_ok|apply cols_fun_length]. Qed.
  Lemma harmless_4xn d : harmless d -> harmless (mixed_radix_4xn d).
  Proof. intros. eapply nxn_harmless; [lia|auto|]. intros. split; [now apply radix4_apply_ok|apply cols_fun_length]. Qed.
  Lemma harmless_5xn d : harmless d -> harmless (mixed_radix_5xn d).
  Proof. intros. eapply nxn_harmless; [lia|auto|]. intros. split; [now apply radix5_apply_ok|apply cols_fun_length]. Qed.
  Lemma harmless_6xn d : harmless d -> harmless (mixed_radix_6xn d).
  Proof. intros. eapply nxn_harmless; [lia|auto|]. intros. split; [now apply radix6_apply_ok|apply cols_fun_length]. Qed.

  (** ** MixedRadix *)
  Lemma sf_transpose (i o : list T) k n : length i = k * n -> length o = k * n ->
    sf h (fun o' => length o' = k * n) (transpose i o k n).
  Proof. intros. rewrite transpose_ok by lia. simpl. apply tab_length. Qed.
  Lemma reverse_chunks_go_length n fuel : forall l : list T, length (reverse_chunks_go fuel n l) = length l.
  Proof.
    induction fuel as [|f IH]; intros l; simpl; auto. destruct (Nat.leb_spec n (length l)); auto.
    rewrite app_length, rev_length, IH, firstn_length, skipn_length. lia.
  Qed.
  Lemma sf_reverse_second (b : list T) f n : sf h (fun b' => length b' = length b) (reverse_second_half b f n).
  Proof.
    unfold reverse_second_half. eapply sf_bind; [apply sf_split_at|]. intros [x y] (L1 & L2 & L3). simpl in L1, L2.
    unfold reverse_chunks. destruct (n =? 0); simpl; auto. rewrite app_length, reverse_chunks_go_length. lia.
  Qed.
  Lemma harmless_mixed dw dh : harmless dw -> harmless dh -> harmless (mixed_radix dw dh).
  Proof.
    intros Hw Hh. unfold mixed_radix. cbv zeta. set (W := dht_len dw). set (H := dht_len dh). apply boilerplate_harmless.
    - intros Hn c scr Lc Ls. assert (HW : 0 < W) by nia. assert (HH : 0 < H) by nia. unfold mixed_inplace. cbv zeta.
      eapply sf_bind; [apply sf_split_at|]. intros [s1 inn] (L1 & L2 & L3). simpl in L1, L2.
      eapply sf_bind; [apply sf_transpose; auto|]. intros s2 L4. cbv beta in L4.
      eapply sf_bind; [apply sf_reverse_second|]. intros s3 L5. cbv beta in L5.
      apply sf_bind with (Q := keeps3 (W * H) (W * H) (length inn)).
      { destruct (length c <? length inn).
        - eapply sf_bind; [apply (call_inplace dh Hh); [reflexivity|reflexivity]|]. intros [s4 b4] [L6 L7]. simpl in *. repeat split; simpl; lia.
        - eapply sf_bind; [apply (call_inplace dh Hh); [reflexivity|reflexivity]|]. intros [s4 b4] [L6 L7]. simpl in *. repeat split; simpl; lia. }
      intros [[s4 b4] i4] (L6 & L7 & L8). simpl in L6, L7, L8.
      rewrite mixed_apply_ok by auto. cbn [bind].
      eapply sf_bind; [apply sf_transpose; rewrite ?tab_length; lia|]. intros b5 L9. cbv beta in L9.
      eapply sf_bind; [apply (call_oop dw Hw); reflexivity|]. intros [[b6 s6] i6] (L10 & L11 & L12). simpl in L10, L11, L12. rewrite tab_length in L11.
      eapply sf_bind; [apply sf_reverse_second|]. intros s7 L13. cbv beta in L13.
      eapply sf_bind; [apply sf_transpose; lia|]. intros b7 L14. cbv beta in L14. split; simpl; auto. rewrite app_length. lia.
    - intros Hn i u scr Li Lu Ls. assert (HW : 0 < W) by nia. assert (HH : 0 < H) by nia. unfold mixed_oop. cbv zeta.
      eapply sf_bind; [apply sf_transpose; auto|]. intros s2 L4. cbv beta in L4.
      eapply sf_bind; [apply sf_reverse_second|]. intros s3 L5. cbv beta in L5.
      apply sf_bind with (Q := keeps3 (W * H) (W * H) (length scr)).
      { destruct (length i <? length scr).
        - eapply sf_bind; [apply (call_inplace dh Hh); [reflexivity|reflexivity]|]. intros [s4 b4] [L6 L7]. simpl in *. repeat split; simpl; lia.
        - eapply sf_bind; [apply (call_inplace dh Hh); [reflexivity|reflexivity]|]. intros [s4 b4] [L6 L7]. simpl in *. repeat split; simpl; lia. }
      intros [[o4 i4] s4] (L6 & L7 & L8). simpl in L6, L7, L8.
      rewrite mixed_apply_ok by auto. cbn [bind].
      eapply sf_bind; [apply sf_transpose; rewrite ?tab_length; lia|]. intros i5 L9. cbv beta in L9.
      apply sf_bind with (Q := keeps3 (W * H) (W * H) (length scr)).
      { rewrite tab_length. destruct (W * H <? length s4).
        - eapply sf_bind; [apply (call_inplace dw Hw); [reflexivity|reflexivity]|]. intros [i6 b6] [L10 L11]. simpl in *. repeat split; simpl; rewrite ?tab_length; lia.
        - eapply sf_bind; [apply (call_inplace dw Hw); [reflexivity|reflexivity]|]. intros [i6 b6] [L10 L11]. simpl in *. rewrite tab_length in L11. repeat split; simpl; lia. }
      intros [[i6 o6] s6] (L10 & L11 & L12). simpl in L10, L11, L12.
      eapply sf_bind; [apply sf_reverse_second|]. intros i7 L13. cbv beta in L13.
      eapply sf_bind; [apply sf_transpose; lia|]. intros o7 L14. cbv beta in L14. repeat split; simpl; lia.
  Qed.

  (** ** SplitRadix *)
  Lemma harmless_split dq dh d : harmless dq -> harmless dh -> split_radix dq dh = Ok d -> harmless d.
  Proof.
    intros Hq Hh E. destruct (split_radix_len _ _ _ E) as (Lh & _). unfold split_radix, rassert in E.
    rewrite Lh, Nat.eqb_refl in E. cbn [bind] in E. injection E as <-. set (q := dht_len dq) in *.
    assert (E2 : q * 4 / 2 = q * 2) by (replace (q * 4) with (q * 2 * 2) by lia; now rewrite Nat.div_mul).
    assert (E4 : q * 4 / 4 = q) by now rewrite Nat.div_mul.
    apply boilerplate_harmless.
    - intros Hn c scr Lc Ls. unfold split_inplace. cbv zeta. rewrite split_apply_ok by lia. cbn [bind]. rewrite E2, E4.
      eapply sf_bind; [apply sf_split_at|]. intros [ev od] (L1 & L2 & L3). simpl in L1, L2.
      assert (Lb : length (split_evens q c ++ split_q1 q c ++ split_q3 q c) = q * 4).
      { pose proof (split_apply_ok q c ltac:(lia) Lc). rewrite !app_length. unfold split_evens, split_q1, split_q3.
        rewrite ?app_length, ?map_length, ?seq_length. lia. }
      eapply sf_bind; [apply (call_inplace dh Hh); reflexivity|]. intros [ev' s1] [L4 L5]. simpl in L4, L5.
      eapply sf_bind; [apply (call_oop dq Hq); reflexivity|]. intros [[od' s2] e2] (L6 & L7 & _). simpl in L6, L7.
      eapply sf_bind; [apply sf_split_at|]. intros [q1 q3] (L8 & L9 & L10). simpl in L8, L9.
      rewrite (split_scatter_ok q) by lia. cbn [bind sf]. split; simpl; rewrite ?app_length; [|lia].
      unfold interleave. rewrite ?tab_length. lia.
    - intros Hn i u scr Li Lu Ls. unfold split_oop. cbv zeta. rewrite split_apply_ok by lia. cbn [bind]. rewrite E2, E4.
      eapply sf_bind; [apply sf_split_at|]. intros [ev od] (L1 & L2 & L3). simpl in L1, L2.
      assert (Lb : length (split_evens q i ++ split_q1 q i ++ split_q3 q i) = q * 4).
      { rewrite !app_length. unfold split_evens, split_q1, split_q3. rewrite ?app_length, ?map_length, ?seq_length. lia. }
      eapply sf_bind; [apply (call_inplace dh Hh); reflexivity|]. intros [ev' o1] [L4 L5]. simpl in L4, L5.
      eapply sf_bind; [apply (call_inplace dq Hq); reflexivity|]. intros [od' o2] (L6 & L7). simpl in L6, L7.
      eapply sf_bind; [apply sf_split_at|]. intros [q1 q3] (L8 & L9 & L10). simpl in L8, L9.
      rewrite (split_gather_ok q) by lia. cbn [bind sf]. repeat split; simpl; rewrite ?app_length; try lia.
      unfold interleave. rewrite ?tab_length. lia.
  Qed.

  (** ** Rader's algorithm *)
  Lemma sf_mul_mod m a b n : sf h (fun _ => True) (mul_mod m a b n).
  Proof. unfold mul_mod, u64. destruct m, (_ <? _)%N; exact Logic.I. Qed.

  Lemma sf_run_inner d (c : bool) (x b e : list T) n1 n2 n3 : harmless d -> length x = n1 -> length b = n2 -> length e = n3 ->
    sf h (keeps3 n1 n2 n3)
      (if c then '(i, e') <- dht_process_with_scratch d x e ;; Ok (i, b, e')
       else '(i, b') <- dht_process_with_scratch d x b ;; Ok (i, b', e)).
  Proof.
    intros Hd L1 L2 L3. destruct c.
    - eapply sf_bind; [apply (call_inplace d Hd); [exact L1|exact L3]|]. intros [i e'] [M1 M2]. now repeat split.
    - eapply sf_bind; [apply (call_inplace d Hd); [exact L1|exact L2]|]. intros [i e'] [M1 M2]. now repeat split.
  Qed.
  Ltac st := eapply sf_bind; [first [apply sf_usub | apply sf_idx | apply sf_set | apply sf_mul_mod]|
    let v := fresh "vv" in let L := fresh "Keq" in intros v L; cbv beta in L].
  Lemma raders_inplace_sf m d n r s tw c scr e : harmless d -> length c = n + 1 -> length scr = n + e ->
    sf h (keeps2 (n + 1) (n + e)) (raders_inplace m d (n + 1) r s tw c scr).
  Proof.
    intros Hd Lc Ls. destruct c as [|c0 c]; [exact Logic.I|]. simpl in Lc. unfold raders_inplace.
    eapply sf_bind; [apply sf_usub|]. intros n' [-> _]. replace (n + 1 - 1) with n by lia.
    eapply sf_bind; [apply sf_split_at|]. intros [inn ex] (L1 & L2 & L3). simpl in L1, L2.
    eapply sf_bind; [apply (sf_for_range (fun p => length (fst p) = n)); [exact L1|]|].
    { intros i [x k] Hx. simpl in Hx. repeat st. simpl. congruence. }
    intros [i1 k1] M1. simpl in M1. cbv zeta.
    eapply sf_bind; [apply sf_run_inner; [auto|exact M1|reflexivity|reflexivity]|]. intros [[i2 b2] e2] (L4 & L5 & L6). simpl in L4, L5, L6.
    repeat st.
    eapply sf_bind; [apply (sf_for_range (fun p => length p = n)); [congruence|]|].
    { intros i x Hx. repeat st. eapply sf_weaken; [apply sf_set|]. cbv beta. intros; congruence. }
    intros i3 M3. cbv beta in M3.
    eapply sf_bind with (Q := fun p => length p = n).
    { destruct (_ =? 0); [|exact M3]. repeat st. eapply sf_weaken; [apply sf_set|]. cbv beta. intros; congruence. }
    intros i4 M4. cbv beta in M4. repeat st.
    eapply sf_bind; [apply sf_run_inner; [auto|reflexivity|reflexivity|reflexivity]|]. intros [[i5 b5] e5] (L7 & L8 & L9). simpl in L7, L8, L9.
    eapply sf_bind; [apply (sf_for_each (fun p => length (fst p) = length b5)); [reflexivity|]|].
    { intros i [x k] Hx. simpl in Hx. repeat st. simpl. congruence. }
    intros [b6 k6] M6. simpl in M6. split; simpl; rewrite ?app_length; lia.
  Qed.
  Lemma raders_oop_sf m d n r s tw i u scr e : harmless d -> length i = n + 1 -> length u = n + 1 -> length scr = e ->
    sf h (keeps3 (n + 1) (n + 1) e) (raders_oop m d (n + 1) r s tw i u scr).
  Proof.
    intros Hd Li Lu Ls. destruct u as [|u0 u]; [exact Logic.I|]. destruct i as [|i0 i]; [exact Logic.I|].
    simpl in Li, Lu. unfold raders_oop.
    eapply sf_bind; [apply (sf_for_range (fun p => length (fst p) = n)); [simpl; lia|]|].
    { intros j [x k] Hx. simpl in Hx. repeat st. simpl. congruence. }
    intros [u1 k1] M1. simpl in M1.
    eapply sf_bind; [apply sf_run_inner; [auto|exact M1|reflexivity|exact Ls]|]. intros [[u2 i2] s2] (L4 & L5 & L6). simpl in L4, L5, L6.
    repeat st.
    eapply sf_bind; [apply (sf_for_range (fun p => length p = n)); [lia|]|].
    { intros j x Hx. repeat st. eapply sf_weaken; [apply sf_set|]. cbv beta. intros; congruence. }
    intros i3 M3. cbv beta in M3.
    eapply sf_bind with (Q := fun p => length p = n).
    { destruct (_ =? 0); [|exact M3]. repeat st. eapply sf_weaken; [apply sf_set|]. cbv beta. intros; congruence. }
    intros i4 M4. cbv beta in M4. repeat st.
    eapply sf_bind; [apply sf_run_inner; [auto|reflexivity|reflexivity|reflexivity]|]. intros [[i5 u5] s5] (L7 & L8 & L9). simpl in L7, L8, L9.
    eapply sf_bind; [apply (sf_for_each (fun p => length (fst p) = length u5)); [reflexivity|]|].
    { intros j [x k] Hx. simpl in Hx. repeat st. simpl. congruence. }
    intros [u6 k6] M6. simpl in M6. repeat split; simpl; lia.
  Qed.
  Lemma harmless_raders m d D : harmless d -> raders m d = Ok D -> harmless D.
  Proof.
    intros Hd. unfold raders, rassert. destruct (miller_rabin _); [|discriminate]. cbn [bind].
    destruct (raders_roots m (dht_len d + 1)) as [[r s]| | |]; cbn [bind]; try discriminate.
    destruct (raders_dht_input m _ s); cbn [bind]; try discriminate.
    destruct (dht_process d a); cbn [bind]; try discriminate.
    destruct (raders_twiddles a0) as [tw| | |]; cbn [bind]; try discriminate.
    intros E. injection E as <-. apply boilerplate_harmless.
    - intros Hn c scr Lc Ls. now apply raders_inplace_sf.
    - intros Hn i u scr Li Lu Ls. now apply raders_oop_sf.
  Qed.

  (** ** every assembled instance *)
  Variables (m : profile) (A : allowed T).
  Hypothesis user : forall d, al_user A d -> harmless d.
  Lemma bf_harmless n contig : 0 < n -> kernel_ok n contig -> harmless (boilerplate_butterfly n contig).
  Proof. intros Hn K. destruct (butterfly_ok n contig Hn K) as [O S]. exact (strict_harmless _ _ O S). Qed.
  Lemma assembled_harmless d : assembled m A d -> harmless d.
  Proof.
    induction 1 as [d U|n| | | | | | | | | |dw dh A1 I1 A2 I2|d A1 I1|d A1 I1|d A1 I1|d A1 I1|d A1 I1
      |dq dh d A1 I1 A2 I2 E|len d E S|d D A1 I1 E S];
      auto using butterfly1_harmless, harmless_mixed, harmless_2xn, harmless_3xn, harmless_4xn, harmless_5xn, harmless_6xn;
      try (apply bf_harmless; [lia|auto using bf2_kernel, bf3_kernel, bf4_kernel, bf5_kernel, bf6_kernel, bf8_kernel, bf9_kernel, bf16_kernel]).
    - destruct (naive_ok (T := T) n) as [O S]. exact (strict_harmless _ _ O S).
    - exact (harmless_split dq dh d I1 I2 E).
    - destruct (radix4_pow _ _ E) as [k ->]. destruct (radix4_ok k) as (d' & E' & O & S' & _).
      rewrite E in E'. injection E' as <-. exact (strict_harmless _ _ O S').
    - exact (harmless_raders m d D I1 E).
  Qed.
End Instances.

Section Bridge.
  Context {T : Type} {NT : Num T}.
  Lemma harmless_safe (d : Dht T) : harmless true d <-> safe_rust d.
  Proof.
    split.
    - intros [H1 H2]. split.
      + intros b s. specialize (H1 b s). destruct (dht_process_with_scratch d b s) as [[b' s']| | |]; simpl in H1;
          try easy. split; [discriminate|]. intros ? ? E. injection E as <- <-. exact H1.
      + intros i o s. specialize (H2 i o s). destruct (dht_process_oop d i o s) as [[[i' o'] s']| | |]; simpl in H2;
          try easy. split; [discriminate|]. intros ? ? ? E. injection E as <- <- <-. exact H2.
    - intros [H1 H2]. split.
      + intros b s. destruct (H1 b s) as [N K]. destruct (dht_process_with_scratch d b s) as [[b' s']| | |]; simpl; auto.
        now apply K.
      + intros i o s. destruct (H2 i o s) as [N K]. destruct (dht_process_oop d i o s) as [[[i' o'] s']| | |]; simpl; auto.
        now apply K.
  Qed.
  Lemma harmless_terminating (d : Dht T) : harmless false d <-> safe_rust d /\ terminating d.
  Proof.
    split.
    - intros H. split; [apply harmless_safe; split|split].
      + intros b s. destruct H as [H1 H2]. specialize (H1 b s).
        destruct (dht_process_with_scratch d b s); simpl in *; auto.
      + intros i o s. destruct H as [H1 H2]. specialize (H2 i o s). destruct (dht_process_oop d i o s); simpl in *; auto.
      + intros b s E. destruct H as [H1 H2]. specialize (H1 b s). rewrite E in H1. discriminate.
      + intros i o s E. destruct H as [H1 H2]. specialize (H2 i o s). rewrite E in H2. discriminate.
    - intros [S [T1 T2]]. apply harmless_safe in S. destruct S as [S1 S2]. split.
      + intros b s. specialize (S1 b s). specialize (T1 b s). destruct (dht_process_with_scratch d b s); simpl in *; auto.
      + intros i o s. specialize (S2 i o s). specialize (T2 i o s). destruct (dht_process_oop d i o s); simpl in *; auto.
  Qed.
End Bridge.
