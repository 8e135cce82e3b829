(** * Proofs of the properties in PropsKeep.v *)
From Verif Require Export KeepSpec Api.
From Verif Require Import Lemmas Contract ButterfliesProof Radix4 Nxn.
From Coq Require Import Arith Lia Bool ZArith.

Section Keep.
  Context {T S : Type}.
  Variable n : nat.
  (** the closure leaves its first chunk and the state alone *)
  Definition keeps (f : list T -> list T -> S -> res (list T * list T * S)) : Prop :=
    forall a b st a' b' st', length a = n -> length b = n -> f a b st = Ok (a', b', st') -> a' = a /\ st' = st.
  Lemma zipped_go_keeps f : keeps f -> forall fuel u b1 b2 st c1 c2 st' ok,
    iter_chunks_zipped_go fuel n f u b1 b2 st = Ok (c1, c2, st', ok) -> c1 = b1 /\ st' = st.
  Proof.
    intros K. induction fuel as [|fuel IH]; intros u b1 b2 st c1 c2 st' ok; cbn [iter_chunks_zipped_go]; [discriminate|].
    destruct ((n <=? length b1) && (n <=? length b2)) eqn:L; [|intros [= <- <- <- <-]; auto].
    apply andb_true_iff in L as [L1 L2]. apply Nat.leb_le in L1, L2.
    unfold split_at. rewrite (proj2 (Nat.leb_le _ _) L1). cbn [rassert bind].
    rewrite (proj2 (Nat.leb_le _ _) L2). cbn [rassert bind].
    destruct (f _ _ st) as [[[h1 h2] s1]| | |] eqn:E; cbn [bind]; try discriminate.
    apply K in E as [-> ->]; [|rewrite firstn_length; lia..].
    destruct (iter_chunks_zipped_go fuel _ _ _ _ _ _) as [[[[r1 r2] s2] k]| | |] eqn:Q; cbn [bind]; try discriminate.
    apply IH in Q as [-> ->]. intros [= <- <- <- <-]. now rewrite firstn_skipn.
  Qed.
  Lemma zipped_keeps f : keeps f -> forall b1 b2 st c1 c2 st' ok,
    iter_chunks_zipped b1 b2 n f st = Ok (c1, c2, st', ok) -> c1 = b1 /\ st' = st.
  Proof.
    intros K b1 b2 st c1 c2 st' ok. unfold iter_chunks_zipped.
    destruct (length b2 <? length b1) eqn:L; [|now apply zipped_go_keeps].
    apply Nat.ltb_lt in L. unfold split_at. rewrite (proj2 (Nat.leb_le (length b2) (length b1))) by lia. cbn [rassert bind].
    destruct (iter_chunks_zipped_go _ _ _ _ _ _ _) as [[[[r1 r2] s2] k]| | |] eqn:Q; cbn [bind]; try discriminate.
    apply zipped_go_keeps in Q as [-> ->]; auto. intros [= <- <- <- <-]. now rewrite firstn_skipn.
  Qed.
End Keep.

Section Instances.
  Context {T : Type} `{Num T}.
  Lemma oop_read_only n perform : @read_only T (boilerplate_dht_oop n perform).
  Proof.
    intros i o s i' o' s'. cbn [dht_process_oop boilerplate_dht_oop]. destruct (n =? 0); [intros [= <- <- <-]; auto|].
    destruct ((length i <? n) || negb (length o =? length i)).
    - destruct (dht_error_outofplace _ _ _ _ _); cbn [bind]; try discriminate. intros [= <- <- <-]; auto.
    - destruct (iter_chunks_zipped i o n _ tt) as [[[[a b] u] ok]| | |] eqn:E; cbn [bind]; try discriminate.
      apply zipped_keeps in E as [-> _].
      + destruct ok; [intros [= <- <- <-]; auto|].
        destruct (dht_error_outofplace _ _ _ _ _); cbn [bind]; try discriminate. intros [= <- <- <-]; auto.
      + intros a' b' st c d st' _ _. destruct (perform a' b'); cbn [bind]; try discriminate. intros [= <- <- <-]; auto.
  Qed.
  Lemma boilerplate_read_only n s0 o0 inplace oop : keeps n oop -> @read_only T (boilerplate_dht n s0 o0 inplace oop).
  Proof.
    intros K i o s i' o' s'. cbn [dht_process_oop boilerplate_dht]. destruct (n =? 0); [intros [= <- <- <-]; auto|].
    destruct ((length s <? o0) || (length i <? n) || negb (length o =? length i)).
    - destruct (dht_error_outofplace _ _ _ _ _); cbn [bind]; try discriminate. intros [= <- <- <-]; auto.
    - unfold split_at. destruct (o0 <=? length s); cbn [bind]; [|discriminate].
      destruct (iter_chunks_zipped i o n oop _) as [[[[a b] u] ok]| | |] eqn:E; cbn [bind]; try discriminate.
      apply zipped_keeps in E as [-> ->]; auto. rewrite firstn_skipn.
      destruct ok; [intros [= <- <- <-]; auto|].
      destruct (dht_error_outofplace _ _ _ _ _); cbn [bind]; try discriminate. intros [= <- <- <-]; auto.
  Qed.
  Lemma butterfly_read_only n contig : kernel_ok n contig -> @read_only T (boilerplate_butterfly n contig).
  Proof.
    intros K i o s i' o' s'. cbn [dht_process_oop boilerplate_butterfly].
    destruct ((length i <? n) || negb (length o =? length i)).
    - destruct (dht_error_outofplace _ _ _ _ _); cbn [bind]; try discriminate. intros [= <- <- <-]; auto.
    - destruct (iter_chunks_zipped i o n _ tt) as [[[[a b] u] ok]| | |] eqn:E; cbn [bind]; try discriminate.
      apply zipped_keeps in E as [-> _].
      + destruct ok; [intros [= <- <- <-]; auto|].
        destruct (dht_error_outofplace _ _ _ _ _); cbn [bind]; try discriminate. intros [= <- <- <-]; auto.
      + intros a' b' st c d st' La Lb. unfold run_sep. destruct (K a' La) as (_ & _ & Q). rewrite (Q b' Lb). cbn [bind].
        intros [= <- <- <-]; auto.
  Qed.
  Lemma butterfly1_read_only : @read_only T butterfly1.
  Proof.
    intros i o s i' o' s'. cbn [dht_process_oop butterfly1]. destruct (copy_from_slice o i); cbn [bind]; try discriminate.
    intros [= <- <- <-]; auto.
  Qed.
  Lemma butterfly_no_scratch n contig : @no_scratch T (boilerplate_butterfly n contig).
  Proof.
    intros b s b' s'. cbn [dht_process_with_scratch boilerplate_butterfly]. destruct (length b <? n).
    - destruct (dht_error_inplace _ _ _ _); cbn [bind]; try discriminate. intros [= <- <-]; auto.
    - destruct (iter_chunks b n _ tt) as [[[c u] ok]| | |]; cbn [bind]; try discriminate.
      destruct ok; [intros [= <- <-]; auto|]. destruct (dht_error_inplace _ _ _ _); cbn [bind]; try discriminate. intros [= <- <-]; auto.
  Qed.
  Lemma butterfly1_no_scratch : @no_scratch T butterfly1.
  Proof. intros b s b' s' [= <- <-]; auto. Qed.
  Lemma nxn_read_only k (d : Dht T) apply : no_scratch d -> read_only (nxn k d apply).
  Proof.
    intros Q. unfold nxn. apply boilerplate_read_only. intros i o s i' o' s' _ _. unfold nxn_oop.
    destruct (transpose_half_rev_out _ _ _ _); cbn [bind]; try discriminate.
    destruct (dht_process_with_scratch d _ _) as [[a' b']| | |] eqn:E; cbn [bind]; try discriminate.
    apply Q in E as ->. destruct (apply a'); cbn [bind]; try discriminate. intros [= <- <- <-]; auto.
  Qed.
  Lemma radix4_read_only len (d : Dht T) : radix4 len = Ok d -> read_only d.
  Proof.
    unfold radix4. destruct (rassert _); cbn [bind]; try discriminate. destruct (radix4_base len) as [bl bd].
    destruct (radix4_twiddles len bl); cbn [bind]; try discriminate. intros [= <-]. apply boilerplate_read_only.
    intros i o s i' o' s' _ _. unfold radix4_oop.
    destruct (prepare_radix4 _ _ _ _ _ _ _); cbn [bind]; try discriminate.
    destruct (dht_process_with_scratch _ _ _) as [[b' u']| | |]; cbn [bind]; try discriminate.
    destruct (radix4_cross _ _ _ _ _); cbn [bind]; try discriminate. intros [= <- <- <-]; auto.
  Qed.
  Lemma C71_flies_proof (m : profile) t (d : Dht T) : is_fly t = true -> build m t = Ok d -> read_only d /\ no_scratch d.
  Proof.
    destruct t; try discriminate; intros _ [= <-].
    - split; [apply butterfly1_read_only|apply butterfly1_no_scratch].
    - split; [apply butterfly_read_only, bf2_kernel|apply butterfly_no_scratch].
    - split; [apply butterfly_read_only, bf3_kernel|apply butterfly_no_scratch].
    - split; [apply butterfly_read_only, bf4_kernel|apply butterfly_no_scratch].
    - split; [apply butterfly_read_only, bf5_kernel|apply butterfly_no_scratch].
    - split; [apply butterfly_read_only, bf6_kernel|apply butterfly_no_scratch].
    - split; [apply butterfly_read_only, bf8_kernel|apply butterfly_no_scratch].
    - split; [apply butterfly_read_only, bf9_kernel|apply butterfly_no_scratch].
    - split; [apply butterfly_read_only, bf16_kernel|apply butterfly_no_scratch].
  Qed.
  Lemma C71_kxn_proof (d : Dht T) : no_scratch d ->
    read_only (mixed_radix_2xn d) /\ read_only (mixed_radix_3xn d) /\ read_only (mixed_radix_4xn d) /\
    read_only (mixed_radix_5xn d) /\ read_only (mixed_radix_6xn d).
  Proof. intros Q. do 4 (split; [now apply nxn_read_only|]). now apply nxn_read_only. Qed.
  Lemma C71_trees_proof (m : profile) t (d : Dht T) : reads_only t = true -> build m t = Ok d -> read_only d.
  Proof.
    intros R E. destruct t as [n| | | | | | | | | |w h|t|t|t|t|t|q h|len|t]; try discriminate R;
      try (eapply C71_flies_proof; [exact R|exact E]); cbn [build reads_only] in *.
    - injection E as <-. apply oop_read_only.
    - destruct (build m t) eqn:B; try discriminate. injection E as <-. now apply C71_kxn_proof, (C71_flies_proof m t).
    - destruct (build m t) eqn:B; try discriminate. injection E as <-. now apply C71_kxn_proof, (C71_flies_proof m t).
    - destruct (build m t) eqn:B; try discriminate. injection E as <-. now apply C71_kxn_proof, (C71_flies_proof m t).
    - destruct (build m t) eqn:B; try discriminate. injection E as <-. now apply C71_kxn_proof, (C71_flies_proof m t).
    - destruct (build m t) eqn:B; try discriminate. injection E as <-. now apply C71_kxn_proof, (C71_flies_proof m t).
    - now apply radix4_read_only with len.
  Qed.
End Instances.

(** the others overwrite their input *)
Lemma C71_others_proof : overwrites (Mixed Fly2 Fly2) [1; 2; 3; 5]%Z /\ overwrites (Two (Naive 2)) [1; 2; 3; 5]%Z /\
  overwrites (Split Fly1 Fly2) [1; 2; 3; 5]%Z /\ overwrites (Rader Fly2) [1; 2; 5]%Z /\ overwrites (Two (Two Fly2)) [1; 2; 3; 5; 8; 13; 21; 34]%Z.
Proof.
  do 4 (split; [vm_compute; discriminate|]). vm_compute; discriminate.
Qed.
