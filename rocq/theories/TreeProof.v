(** * Every instance assembled from the constructors meets the contract *)
From Verif Require Import Lemmas NxnProof NxnInst MixedRadixProof MixedContract SplitRadixProof Radix4Proof NumTheory Residues MathProofs RootProofs RadersContract.
From Verif Require Export Contract ButterfliesProof Api.
From Coq Require Import Lia NArith.

Section Concat.
  Context {T : Type}.
  Lemma concat_length_const n (xs : list (list T)) :
    Forall (fun x => length x = n) xs -> length (concat xs) = length xs * n.
  Proof. induction 1 as [|x xs Hx _ IH]; auto. simpl. rewrite app_length, Hx, IH. reflexivity. Qed.
  Lemma map_chunks_concat n f (xs : list (list T)) : 0 < n -> Forall (fun x => length x = n) xs ->
    map_chunks n f (concat xs) = concat (map f xs).
  Proof.
    intros Hn. induction 1 as [|x xs Hx _ IH]; simpl; [apply map_chunks_nil|].
    now rewrite map_chunks_cons, IH by auto.
  Qed.
  Lemma chunks_exist n m (l : list T) : length l = m * n ->
    exists xs, l = concat xs /\ length xs = m /\ Forall (fun x => length x = n) xs.
  Proof.
    revert l. induction m as [|m IH]; intros l Hl.
    - destruct l; [|discriminate]. exists []. auto.
    - destruct (IH (skipn n l)) as (xs & E & L & F); [rewrite skipn_length; lia|].
      exists (firstn n l :: xs). simpl. rewrite <- E, firstn_skipn. repeat split; auto.
      constructor; auto. rewrite firstn_length. lia.
  Qed.
End Concat.

Section Equiv.
  Context {T : Type} {NT : Num T}.
  Lemma transforms_ok (d : Dht T) f : dht_ok d f <-> transforms d f.
  Proof.
    split; intros [H1 H2 H3 H4]; split; auto.
    - intros xs s Hn [N F] Hs. assert (L := concat_length_const _ _ F).
      destruct (H2 Hn (length xs) (concat xs) s) as (s' & E & R); auto; [destruct xs; [easy|simpl; lia]|].
      rewrite map_chunks_concat in E by auto. eauto.
    - intros xs o s Hn [N F] Ho Hs. assert (L := concat_length_const _ _ F).
      destruct (H3 Hn (length xs) (concat xs) o s) as (i' & s' & E & R); auto; [destruct xs; [easy|simpl; lia]|].
      rewrite map_chunks_concat in E by auto. eauto.
    - intros Hn m b s Hm Hb Hs. destruct (chunks_exist _ _ _ Hb) as (xs & -> & L & F).
      destruct (H2 xs s) as (s' & E & R); auto; [split; auto; intros ->; simpl in L; lia|].
      rewrite map_chunks_concat by auto. eauto.
    - intros Hn m i o s Hm Hi Ho Hs. destruct (chunks_exist _ _ _ Hi) as (xs & -> & L & F).
      destruct (H3 xs o s) as (i' & s' & E & R); auto; [split; auto; intros ->; simpl in L; lia|].
      rewrite map_chunks_concat by auto. eauto.
  Qed.

  (** ** zero-length composites *)
  Lemma boilerplate_zero s o inplace oop (f : list T -> list T) :
    (forall x, length x = 0 -> length (f x) = 0) -> dht_ok (boilerplate_dht 0 s o inplace oop) f.
  Proof. intros. apply boilerplate_dht_ok; auto; lia. Qed.
  Lemma nxn_zero k (d : Dht T) apply (f : list T -> list T) : dht_len d = 0 ->
    (forall x, length x = 0 -> length (f x) = 0) -> dht_ok (nxn k d apply) f.
  Proof. intros E Hf. unfold nxn. rewrite E, Nat.mul_0_r. now apply boilerplate_zero. Qed.
  Lemma strict_zero (d : Dht T) : dht_len d = 0 -> dht_strict d.
  Proof. intros E Hn. lia. Qed.
  Lemma split_zero (dq dh d : Dht T) (f : list T -> list T) : dht_len dq = 0 -> split_radix dq dh = Ok d ->
    (forall x, length x = 0 -> length (f x) = 0) -> dht_ok d f /\ dht_len d = 0.
  Proof.
    intros E H Hf. unfold split_radix, rassert in H. rewrite E in H.
    destruct (dht_len dh =? 0 * 2); cbn [bind] in H; [|discriminate]. injection H as <-. split; [|reflexivity].
    now apply boilerplate_zero.
  Qed.
  Lemma split_radix_len (dq dh d : Dht T) : split_radix dq dh = Ok d ->
    dht_len dh = dht_len dq * 2 /\ dht_len d = dht_len dq * 4 /\ dht_inplace_scratch d = dht_len dh /\ dht_oop_scratch d = 0.
  Proof.
    unfold split_radix, rassert. destruct (Nat.eqb_spec (dht_len dh) (dht_len dq * 2)); [|discriminate].
    cbn [bind]. intros H. injection H as <-. auto.
  Qed.

  (** ** sizes *)
  Definition modest_pos (d : Dht T) : Prop := 0 < dht_len d -> modest d.
  Lemma nxn_sizes k (d : Dht T) apply : 0 < k -> dht_inplace_scratch d <= k * dht_len d ->
    dht_len (nxn k d apply) = k * dht_len d /\ modest (nxn k d apply).
  Proof.
    intros Hk H. unfold nxn, modest, boilerplate_dht. cbn [dht_len dht_inplace_scratch dht_oop_scratch].
    destruct (Nat.ltb_spec (k * dht_len d) (dht_inplace_scratch d)); lia.
  Qed.
  Lemma nxn_modest k (d : Dht T) apply : 0 < k -> modest_pos d -> modest_pos (nxn k d apply).
  Proof.
    intros Hk M Hn. unfold nxn, boilerplate_dht in Hn. cbn [dht_len] in Hn.
    assert (Hd : 0 < dht_len d) by nia. destruct (M Hd) as [M1 M2]. apply nxn_sizes; auto. nia.
  Qed.
  Lemma mixed_modest (dw dh : Dht T) : modest_pos dw -> modest_pos dh -> modest_pos (mixed_radix dw dh).
  Proof.
    intros Mw Mh Hn. unfold mixed_radix, boilerplate_dht in *. cbn [dht_len] in Hn. unfold modest.
    cbn [dht_len dht_inplace_scratch dht_oop_scratch].
    assert (Hw : 0 < dht_len dw) by nia. assert (Hh : 0 < dht_len dh) by nia.
    destruct (Mw Hw) as [W1 W2]. destruct (Mh Hh) as [H1 H2]. rewrite W2.
    destruct (Nat.ltb_spec (dht_len dw * dht_len dh) (dht_inplace_scratch dh)); [nia|].
    destruct (Nat.ltb_spec (dht_len dw * dht_len dh) (Nat.max (dht_inplace_scratch dh) (dht_inplace_scratch dw))); nia.
  Qed.
  Lemma fits_modest k (d : Dht T) : 0 < k -> modest d -> fits k d.
  Proof. intros Hk [M1 M2]. split; auto. nia. Qed.

  Lemma raders_len m (d D : Dht T) : raders m d = Ok D -> dht_len D = dht_len d + 1 /\
    dht_inplace_scratch D = dht_len d + raders_extra d /\ dht_oop_scratch D = raders_extra d.
  Proof.
    unfold raders, rassert. destruct (miller_rabin _); [|discriminate]. cbn [bind].
    destruct (raders_roots m (dht_len d + 1)) as [[r s]| | |]; cbn [bind]; try discriminate.
    destruct (raders_dht_input m _ s); cbn [bind]; try discriminate.
    destruct (dht_process d a); cbn [bind]; try discriminate.
    destruct (raders_twiddles a0); cbn [bind]; try discriminate.
    intros E. injection E as <-. auto.
  Qed.
  Lemma raders_prime m (d D : Dht T) : raders m d = Ok D -> nprime (N.of_nat (dht_len d + 1)) /\ 2 <= dht_len d.
  Proof.
    intros E. assert (P : nprime (N.of_nat (dht_len d + 1))).
    { destruct (miller_rabin (N.of_nat (dht_len d + 1))) eqn:M; [now apply miller_rabin_ok|].
      unfold raders in E. rewrite M in E. discriminate. }
    split; auto. assert (dht_len d <> 1) by (intros Z; rewrite (raders_two m d Z) in E; discriminate).
    assert (dht_len d <> 0); [|lia]. intros Z. rewrite Z in P. destruct P as [P _]. simpl in P. lia.
  Qed.
  Lemma raders_modest m (d D : Dht T) : modest_pos d -> raders m d = Ok D -> modest_pos D.
  Proof.
    intros M E _. destruct (raders_len m d D E) as (L1 & L2 & L3). destruct (raders_prime m d D E).
    destruct (M ltac:(lia)) as [M1 _]. unfold modest. unfold raders_extra in L2, L3.
    destruct (Nat.leb_spec (dht_inplace_scratch d) (dht_len d)); lia.
  Qed.
  Lemma radix4_sizes len (d : Dht T) : radix4 len = Ok d ->
    dht_len d = len /\ dht_inplace_scratch d = len /\ dht_oop_scratch d = 0.
  Proof.
    unfold radix4, rassert. destruct (is_power_of_two len); [|discriminate]. cbn [bind].
    destruct (radix4_base len) as [bl bd]. destruct (radix4_twiddles len bl); cbn [bind]; try discriminate.
    intros E. injection E as <-. auto.
  Qed.
  Lemma radix4_pow len (d : Dht T) : radix4 len = Ok d -> exists k, len = 2 ^ k.
  Proof.
    intros E. destruct (is_power_of_two len) eqn:P; [now apply is_power_of_two_spec|].
    unfold radix4 in E. rewrite P in E. discriminate.
  Qed.

  (** ** the tree *)
  Variables (m : profile) (A : allowed T).
  Hypothesis user_ok : forall d, al_user A d -> (exists f, dht_ok d f) /\ modest_pos d.
  Hypothesis rader_small : forall p, al_rader A p -> (N.of_nat p <= 2 ^ 32)%N.

  Lemma assembled_modest d : assembled m A d -> modest_pos d.
  Proof.
    induction 1; try (intros _; split; simpl; lia);
      try (apply nxn_modest; auto; lia); auto using mixed_modest.
    - now apply user_ok.
    - destruct (split_radix_len _ _ _ H1) as (L1 & L2 & L3 & L4). intros _. split; lia.
    - destruct (radix4_sizes _ _ H) as (L1 & L2 & L3). intros _. split; lia.
    - eapply raders_modest; eauto.
  Qed.

  Let trivial_ok k (d : Dht T) apply : dht_len d = 0 -> exists f, dht_ok (nxn k d apply) f.
  Proof. intros E. exists (fun x => x). apply nxn_zero; auto. Qed.

  Lemma assembled_ok d : assembled m A d -> exists f, dht_ok d f.
  Proof.
    induction 1 as [d U|n| | | | | | | | | |dw dh A1 [fw I1] A2 [fh I2]|d A1 [f I1]|d A1 [f I1]|d A1 [f I1]|d A1 [f I1]|d A1 [f I1]
      |dq dh d A1 [fq I1] A2 [fh I2] E|len d E|d D A1 [f I1] E];
      try (eexists; apply butterfly_ok; [lia|auto using bf2_kernel, bf3_kernel, bf4_kernel, bf5_kernel, bf6_kernel, bf8_kernel, bf9_kernel, bf16_kernel]).
    - now apply user_ok.
    - eexists. apply naive_ok.
    - eexists. apply butterfly1_ok.
    - eexists. apply mixed_radix_ok; eauto.
    - pose proof (assembled_modest _ A1) as M. destruct (Nat.eq_dec (dht_len d) 0); [now apply trivial_ok|].
      eexists. apply mixed_radix_2xn_ok; [eauto|apply fits_modest; [lia|apply M; lia]].
    - pose proof (assembled_modest _ A1) as M. destruct (Nat.eq_dec (dht_len d) 0); [now apply trivial_ok|].
      eexists. apply mixed_radix_3xn_ok; [eauto|apply fits_modest; [lia|apply M; lia]].
    - pose proof (assembled_modest _ A1) as M. destruct (Nat.eq_dec (dht_len d) 0); [now apply trivial_ok|].
      eexists. apply mixed_radix_4xn_ok; [eauto|apply fits_modest; [lia|apply M; lia]].
    - pose proof (assembled_modest _ A1) as M. destruct (Nat.eq_dec (dht_len d) 0); [now apply trivial_ok|].
      eexists. apply mixed_radix_5xn_ok; [eauto|apply fits_modest; [lia|apply M; lia]].
    - pose proof (assembled_modest _ A1) as M. destruct (Nat.eq_dec (dht_len d) 0); [now apply trivial_ok|].
      eexists. apply mixed_radix_6xn_ok; [eauto|apply fits_modest; [lia|apply M; lia]].
    - destruct (Nat.eq_dec (dht_len dq) 0) as [Z|Z].
      { exists (fun x => x). eapply split_zero; eauto. }
      destruct (split_radix_len _ _ _ E) as (L1 & L2 & L3 & L4).
      destruct (assembled_modest _ A1 ltac:(lia)) as [Q1 Q2]. destruct (assembled_modest _ A2 ltac:(lia)) as [H1 H2].
      destruct (split_radix_ok dq dh fq fh I1 I2 L1 H1 ltac:(lia) Q2) as (d' & E' & O & _).
      rewrite E in E'. injection E' as <-. eauto.
    - destruct (radix4_pow _ _ E) as [k ->]. destruct (radix4_ok k) as (d' & E' & O & _).
      rewrite E in E'. injection E' as <-. eauto.
    - destruct (raders_prime _ _ _ E) as [P L]. destruct (raders_len _ _ _ E) as (L1 & _).
      destruct (raders_ok m d f I1 P L) as (D' & r & s & E' & _ & _ & _ & _ & _ & _ & O & _).
      { rewrite <- L1. now apply rader_small. }
      rewrite E in E'. injection E' as <-. eauto.
  Qed.

  (** everything except Butterfly1 and user code panics on wrong sizes *)
  Lemma assembled_strict d : assembled m A d -> ~ al_user A d -> d <> butterfly1 -> dht_strict d.
  Proof.
    intros H N1 N2. destruct (Nat.eq_dec (dht_len d) 0) as [Z|Z]; [now apply strict_zero|].
    destruct H as [d U|n| | | | | | | | | |dw dh A1 A2|d A1|d A1|d A1|d A1|d A1|dq dh d A1 A2 E|len d E|d D A1 E];
      try easy;
      try (apply butterfly_ok; [lia|auto using bf2_kernel, bf3_kernel, bf4_kernel, bf5_kernel, bf6_kernel, bf8_kernel, bf9_kernel, bf16_kernel]);
      try (destruct (assembled_ok _ A1) as [f I1]; pose proof (assembled_modest _ A1) as M);
      try (assert (Hd : 0 < dht_len d)
             by (unfold mixed_radix_2xn, mixed_radix_3xn, mixed_radix_4xn, mixed_radix_5xn, mixed_radix_6xn, nxn in Z;
                 cbv zeta in Z; cbn [dht_len boilerplate_dht] in Z; lia); specialize (M Hd)).
    - apply naive_ok.
    - destruct (assembled_ok _ A2) as [f2 I2]. eapply mixed_radix_ok; eauto.
    - eapply mixed_radix_2xn_ok; [eauto|apply fits_modest; [lia|auto]].
    - eapply mixed_radix_3xn_ok; [eauto|apply fits_modest; [lia|auto]].
    - eapply mixed_radix_4xn_ok; [eauto|apply fits_modest; [lia|auto]].
    - eapply mixed_radix_5xn_ok; [eauto|apply fits_modest; [lia|auto]].
    - eapply mixed_radix_6xn_ok; [eauto|apply fits_modest; [lia|auto]].
    - destruct (split_radix_len _ _ _ E) as (L1 & L2 & L3 & L4).
      destruct (assembled_ok _ A2) as [f2 I2].
      destruct (assembled_modest _ A1 ltac:(lia)) as [Q1 Q2]. destruct (assembled_modest _ A2 ltac:(lia)) as [H1 H2].
      destruct (split_radix_ok dq dh f f2 I1 I2 L1 H1 ltac:(lia) Q2) as (d' & E' & _ & O & _).
      rewrite E in E'. injection E' as <-. auto.
    - destruct (radix4_pow _ _ E) as [k ->]. destruct (radix4_ok k) as (d' & E' & _ & O & _).
      rewrite E in E'. injection E' as <-. auto.
    - destruct (raders_prime _ _ _ E) as [P L]. destruct (raders_len _ _ _ E) as (L1 & _).
      destruct (raders_ok m d f I1 P L) as (D' & r & s & E' & _ & _ & _ & _ & _ & _ & _ & O & _).
      { rewrite <- L1. now apply rader_small. }
      rewrite E in E'. injection E' as <-. auto.
  Qed.
End Equiv.
