(** * Properties C13-C16, C19, C20, C26, C27, C35-C37: the contract of the Dht trait

    No law of arithmetic is assumed anywhere in this file: [Num T] is an arbitrary type with arbitrary
    operations, so IEEE f32 and f64 are covered.  Vocabulary: Api.v.  [assembled m (over P) d] says that [d]
    is built by the public constructors from the instances [P] (the user's own, if any). *)
From Verif Require Import PropsContractProof MathProofs.
From Coq Require Import Lia NArith.

(** ** C13 *)
Theorem C13_same_result : forall (T : Type) (NT : Num T) (m : profile) (P : Dht T -> Prop),
  (forall d, P d -> well_behaved d) ->
  forall d, assembled m (over P) d ->
  forall buffer output scratch scratch2, 0 < dht_len d ->
  sized_inplace d buffer scratch -> sized_oop d buffer output scratch2 ->
  exists result s1 i s2,
    dht_process_with_scratch d buffer scratch = Ok (result, s1) /\
    dht_process_oop d buffer output scratch2 = Ok (i, result, s2).
Proof. exact @tree_same_result. Qed.
Print Assumptions C13_same_result.
Example C13_case : forall (T : Type) (NT : Num T) (m : profile) (x : T),
  let d := mixed_radix butterfly3 (mixed_radix_2xn butterfly2) in
  assembled m library d /\ dht_len d = 12 /\
  sized_inplace d (repeat x 24) (repeat x 12) /\ sized_oop d (repeat x 24) (repeat x 24) [].
Proof.
  intros. split; [apply as_mixed; [apply as_bf3|apply as_2xn, as_bf2]|]. split; [reflexivity|].
  split; repeat split; cbn; lia.
Qed.

(** ** C14 *)
Theorem C14_scratch_inplace : forall (T : Type) (NT : Num T) (m : profile) (P : Dht T -> Prop),
  (forall d, P d -> well_behaved d) ->
  forall d, assembled m (over P) d ->
  forall buffer s1 s2, 0 < dht_len d -> sized_inplace d buffer s1 -> sized_inplace d buffer s2 ->
  exists result s1' s2',
    dht_process_with_scratch d buffer s1 = Ok (result, s1') /\
    dht_process_with_scratch d buffer s2 = Ok (result, s2') /\
    length result = length buffer /\ length s1' = length s1 /\
    skipn (dht_inplace_scratch d) s1' = skipn (dht_inplace_scratch d) s1.
Proof. exact @tree_scratch_inplace. Qed.
Print Assumptions C14_scratch_inplace.
Theorem C14_scratch_outofplace : forall (T : Type) (NT : Num T) (m : profile) (P : Dht T -> Prop),
  (forall d, P d -> well_behaved d) ->
  forall d, assembled m (over P) d ->
  forall input o1 o2 s1 s2, 0 < dht_len d -> sized_oop d input o1 s1 -> sized_oop d input o2 s2 ->
  exists result i1 i2 s1' s2',
    dht_process_oop d input o1 s1 = Ok (i1, result, s1') /\
    dht_process_oop d input o2 s2 = Ok (i2, result, s2') /\
    length result = length o1 /\ length i1 = length input /\ length s1' = length s1 /\
    skipn (dht_oop_scratch d) s1' = skipn (dht_oop_scratch d) s1.
Proof. exact @tree_scratch_oop. Qed.
Print Assumptions C14_scratch_outofplace.
(** scratch of different lengths and contents, longer than required *)
Example C14_case : forall (T : Type) (NT : Num T) (m : profile) (x y : T),
  let d := mixed_radix_5xn (mixed_radix butterfly4 butterfly9) in
  assembled m library d /\ dht_len d = 180 /\
  sized_inplace d (repeat x 360) (repeat y 180) /\ sized_inplace d (repeat x 360) (repeat x 200).
Proof.
  intros. split; [apply as_5xn, as_mixed; [apply as_bf4|apply as_bf9]|]. split; [reflexivity|].
  split; repeat split; cbn; lia.
Qed.

(** ** C15 *)
Theorem C15_chunkwise : forall (T : Type) (NT : Num T) (m : profile) (P : Dht T -> Prop),
  (forall d, P d -> well_behaved d) ->
  forall d, assembled m (over P) d ->
  forall xs, 0 < dht_len d -> chunks_of (dht_len d) xs ->
  exists ys,
    Forall2 (fun x y => length y = dht_len d /\
      (forall scratch, dht_inplace_scratch d <= length scratch ->
         exists s', dht_process_with_scratch d x scratch = Ok (y, s')) /\
      (forall output scratch, length output = length x -> dht_oop_scratch d <= length scratch ->
         exists i' s', dht_process_oop d x output scratch = Ok (i', y, s'))) xs ys /\
    (forall scratch, dht_inplace_scratch d <= length scratch ->
       exists s', dht_process_with_scratch d (concat xs) scratch = Ok (concat ys, s')) /\
    (forall output scratch, length output = length (concat xs) -> dht_oop_scratch d <= length scratch ->
       exists i' s', dht_process_oop d (concat xs) output scratch = Ok (i', concat ys, s')).
Proof. exact @tree_chunkwise. Qed.
Print Assumptions C15_chunkwise.
Example C15_case : forall (T : Type) (NT : Num T) (m : profile) (x y : T),
  let d := mixed_radix_3xn butterfly4 in
  assembled m library d /\ chunks_of (dht_len d) [repeat x 12; repeat y 12; repeat x 12].
Proof.
  intros. split; [apply as_3xn, as_bf4|]. split; [discriminate|repeat constructor].
Qed.

(** ** C16: false of Butterfly1, true of everything else *)
Theorem C16_refuted : forall (T : Type) (NT : Num T) (m : profile),
  exists d : Dht T, assembled m library d /\ 0 < dht_len d /\
  exists buffer scratch, ~ sized_inplace d buffer scratch /\ dht_process_with_scratch d buffer scratch <> Panic.
Proof. exact @C16_refuted_proof. Qed.
Print Assumptions C16_refuted.
(** missing from C16: Butterfly1, whose behaviour is [C16_butterfly1] *)
Theorem C16_panics_partial : forall (T : Type) (NT : Num T) (m : profile) (P : Dht T -> Prop),
  (forall d, P d -> well_behaved d) ->
  forall d, assembled m (over P) d -> ~ P d -> d <> butterfly1 -> 0 < dht_len d ->
  (forall buffer scratch,
     dht_process_with_scratch d buffer scratch = Panic <-> ~ sized_inplace d buffer scratch) /\
  (forall input output scratch,
     dht_process_oop d input output scratch = Panic <-> ~ sized_oop d input output scratch).
Proof. exact @tree_panics. Qed.
Print Assumptions C16_panics_partial.
Theorem C16_butterfly1 : forall (T : Type) (buffer scratch input output : list T),
  dht_process_with_scratch butterfly1 buffer scratch = Ok (buffer, scratch) /\
  (dht_process_oop butterfly1 input output scratch = Panic <-> length input <> length output).
Proof. exact @butterfly1_panics. Qed.
Print Assumptions C16_butterfly1.
Example C16_case : forall (T : Type) (NT : Num T) (m : profile) (x : T),
  let d := mixed_radix_2xn butterfly5 in
  assembled m library d /\ d <> butterfly1 /\
  sized_inplace d (repeat x 20) (repeat x 10) /\ ~ sized_inplace d (repeat x 20) (repeat x 9) /\
  ~ sized_inplace d (repeat x 15) (repeat x 10) /\ ~ sized_inplace d (repeat x 5) (repeat x 10).
Proof.
  intros. split; [apply as_2xn, as_bf5|]. split; [intros E; apply (f_equal dht_len) in E; discriminate|].
  split; [repeat split; cbn; lia|]. split; [|split]; intros (H1 & H2 & H3); cbn in H1, H2, H3; lia.
Qed.

(** ** C19 *)
Theorem C19_mixed_radix : forall (T : Type) (NT : Num T) (dw dh : Dht T) fw fh,
  transforms dw fw -> transforms dh fh ->
  exists f, transforms (mixed_radix dw dh) f /\ (0 < dht_len dw * dht_len dh -> checks_sizes (mixed_radix dw dh)).
Proof. exact @C19_mixed_proof. Qed.
Print Assumptions C19_mixed_radix.
Theorem C19_raders : forall (T : Type) (NT : Num T) (m : profile) (d : Dht T) f,
  transforms d f -> nprime (N.of_nat (dht_len d + 1)) -> dht_len d <> 1 -> (N.of_nat (dht_len d + 1) <= 2 ^ 32)%N ->
  exists D g, raders m d = Ok D /\ transforms D g /\ checks_sizes D.
Proof. exact @C19_rader_proof. Qed.
Print Assumptions C19_raders.
(** instances obeying the contract with any length and any scratch requirements exist *)
Example C19_case : forall (T : Type) (NT : Num T) n s o, exists (d : Dht T) f, transforms d f /\
  dht_len d = n /\ dht_inplace_scratch d = s /\ dht_oop_scratch d = o.
Proof. intros. exists (greedy n s o), (fun x => x). split; [apply greedy_ok|auto]. Qed.

(** ** C20: false; [C20_exact] says when it holds *)
Theorem C20_refuted : forall (T : Type) (NT : Num T),
  (exists d f, transforms d f /\ checks_sizes d /\ 0 < dht_len d /\
     (forall D, In D [@mixed_radix_2xn T NT d; mixed_radix_3xn d; mixed_radix_4xn d; mixed_radix_5xn d; mixed_radix_6xn d] ->
        forall b scr, sized_inplace D b scr -> dht_process_with_scratch D b scr = Panic)) /\
  (exists dq fq dh fh d, transforms dq fq /\ checks_sizes dq /\ transforms dh fh /\ checks_sizes dh /\
     @split_radix T NT dq dh = Ok d /\ 0 < dht_len d /\
     forall b scr, sized_inplace d b scr -> dht_process_with_scratch d b scr = Panic).
Proof. exact @C20_refuted_proof. Qed.
Print Assumptions C20_refuted.
Theorem C20_exact : forall (T : Type) (NT : Num T) (d : Dht T) f,
  transforms d f -> checks_sizes d -> 0 < dht_len d ->
  let enough k := dht_inplace_scratch d <= k * dht_len d /\ dht_oop_scratch d = 0 in
  ((exists g, transforms (mixed_radix_2xn d) g) <-> enough 2) /\
  ((exists g, transforms (mixed_radix_3xn d) g) <-> enough 3) /\
  ((exists g, transforms (mixed_radix_4xn d) g) <-> enough 4) /\
  ((exists g, transforms (mixed_radix_5xn d) g) <-> enough 5) /\
  ((exists g, transforms (mixed_radix_6xn d) g) <-> enough 6).
Proof. exact @C20_exact_proof. Qed.
Print Assumptions C20_exact.
Theorem C20_exact_split : forall (T : Type) (NT : Num T) (dq dh d : Dht T) fq fh,
  transforms dq fq -> transforms dh fh -> 0 < dht_len dq -> checks_sizes dq -> checks_sizes dh ->
  split_radix dq dh = Ok d ->
  ((exists f, transforms d f) <->
   dht_inplace_scratch dh <= dht_len dh /\ dht_inplace_scratch dq <= 4 * dht_len dq /\ dht_oop_scratch dq = 0).
Proof. exact @exact_split. Qed.
Print Assumptions C20_exact_split.
(** missing from C20: inner instances asking for more in-place scratch than their length, or for any
    out-of-place scratch; instances of the library itself never do ([C26_sizes]) *)
Theorem C20_modest_partial : forall (T : Type) (NT : Num T) (d : Dht T) f, transforms d f -> modest d ->
  Forall (fun D => exists g, transforms D g)
    [mixed_radix_2xn d; mixed_radix_3xn d; mixed_radix_4xn d; mixed_radix_5xn d; mixed_radix_6xn d].
Proof. exact @C20_partial_proof. Qed.
Print Assumptions C20_modest_partial.
Example C20_case : forall (T : Type) (NT : Num T), exists (d d' : Dht T) f f',
  transforms d f /\ checks_sizes d /\ dht_len d = 3 /\ dht_inplace_scratch d = 7 /\
  transforms d' f' /\ checks_sizes d' /\ modest d' /\ dht_len d' = 3.
Proof.
  intros. destruct (greedy_ok (T := T) 3 7 0) as [G1 G2]. destruct (greedy_ok (T := T) 3 2 0) as [H1 H2].
  exists (greedy 3 7 0), (greedy 3 2 0), (fun x => x), (fun x => x).
  split; [exact G1|]. split; [apply G2; lia|]. split; [reflexivity|]. split; [reflexivity|].
  split; [exact H1|]. split; [apply H2; lia|]. split; [split; cbn; lia|reflexivity].
Qed.

(** ** C26 *)
Theorem C26_lengths : forall (T : Type) (NT : Num T) (m : profile),
  (forall n, dht_len (@dht_naive T NT n) = n) /\
  (forall dw dh : Dht T, dht_len (mixed_radix dw dh) = dht_len dw * dht_len dh) /\
  (forall d : Dht T, dht_len (mixed_radix_2xn d) = 2 * dht_len d /\ dht_len (mixed_radix_3xn d) = 3 * dht_len d /\
     dht_len (mixed_radix_4xn d) = 4 * dht_len d /\ dht_len (mixed_radix_5xn d) = 5 * dht_len d /\
     dht_len (mixed_radix_6xn d) = 6 * dht_len d) /\
  (forall dq dh d : Dht T, split_radix dq dh = Ok d -> dht_len d = 4 * dht_len dq) /\
  (forall n (d : Dht T), radix4 n = Ok d -> dht_len d = n) /\
  (forall d D : Dht T, raders m d = Ok D -> dht_len D = dht_len d + 1).
Proof. exact @C26_lengths_proof. Qed.
Print Assumptions C26_lengths.
Theorem C26_sizes : forall (T : Type) (NT : Num T) (m : profile) (P : Dht T -> Prop),
  (forall d, P d -> well_behaved d) ->
  forall d, assembled m (over P) d -> 0 < dht_len d ->
  dht_inplace_scratch d <= dht_len d /\ dht_oop_scratch d = 0.
Proof. exact @tree_modest. Qed.
Print Assumptions C26_sizes.
(** zero-length instances may report scratch *)
Example C26_case : forall (T : Type) (NT : Num T) (m : profile),
  let d := mixed_radix (dht_naive 0) (dht_naive 5) in
  assembled m library d /\ dht_len d = 0 /\ dht_inplace_scratch d = 5.
Proof. intros. split; [apply as_mixed; apply as_naive|split; reflexivity]. Qed.

(** ** C27: false of RadersAlgorithm at length 2 and above 2^32 *)
Theorem C27_radix4 : forall (T : Type) (NT : Num T) n,
  (@radix4 T NT n = Panic <-> forall k, n <> 2 ^ k) /\ ((exists k, n = 2 ^ k) -> exists d, @radix4 T NT n = Ok d).
Proof. exact @C27_radix4_proof. Qed.
Print Assumptions C27_radix4.
Theorem C27_split_radix : forall (T : Type) (NT : Num T) (dq dh : Dht T),
  (split_radix dq dh = Panic <-> dht_len dh <> 2 * dht_len dq) /\
  (dht_len dh = 2 * dht_len dq -> exists d, split_radix dq dh = Ok d).
Proof. exact @C27_split_proof. Qed.
Print Assumptions C27_split_radix.
Theorem C27_refuted : forall (T : Type) (NT : Num T) (m : profile),
  exists d : Dht T, assembled m library d /\ nprime (N.of_nat (dht_len d + 1)) /\ raders m d = Panic.
Proof. exact @C27_refuted_proof. Qed.
Print Assumptions C27_refuted.
Theorem C27_large_refuted : forall (T : Type) (NT : Num T) (d : Dht T), dht_len d = N.to_nat 4294967310 ->
  nprime (N.of_nat (dht_len d + 1)) /\ raders Debug d = Panic.
Proof. exact @C27_large_proof. Qed.
Print Assumptions C27_large_refuted.
(** missing from C27: length 2 and lengths above 2^32 *)
Theorem C27_raders_partial : forall (T : Type) (NT : Num T) (m : profile) (d : Dht T) f,
  transforms d f -> dht_len d <> 1 -> (N.of_nat (dht_len d + 1) <= 2 ^ 32)%N ->
  (raders m d = Panic <-> ~ nprime (N.of_nat (dht_len d + 1))) /\
  (nprime (N.of_nat (dht_len d + 1)) -> exists D, raders m d = Ok D).
Proof. exact @C27_rader_proof. Qed.
Print Assumptions C27_raders_partial.
Example C27_case : forall (T : Type) (NT : Num T), exists d : Dht T, (exists f, transforms d f) /\ dht_len d = N.to_nat 4294967310.
Proof.
  intros. exists (greedy (N.to_nat 4294967310) 0 0). split; [exists (fun x => x); apply greedy_ok|reflexivity].
Qed.

(** ** C35 *)
Theorem C35_zero_length : forall (T : Type) (NT : Num T) (m : profile) (P : Dht T -> Prop),
  (forall d, P d -> well_behaved d) ->
  forall d, assembled m (over P) d -> dht_len d = 0 ->
  (forall buffer scratch, dht_process_with_scratch d buffer scratch = Ok (buffer, scratch)) /\
  (forall input output scratch, dht_process_oop d input output scratch = Ok (input, output, scratch)) /\
  (forall buffer, dht_process d buffer = Ok buffer).
Proof. exact @tree_inert. Qed.
Print Assumptions C35_zero_length.
Example C35_case : forall (T : Type) (NT : Num T) (m : profile),
  let d := mixed_radix_6xn (mixed_radix (dht_naive 7) (dht_naive 0)) in assembled m library d /\ dht_len d = 0.
Proof. intros. split; [apply as_6xn, as_mixed; apply as_naive|reflexivity]. Qed.

(** ** C36: true of iter_chunks; for iter_chunks_zipped false when the second buffer is longer *)
Theorem C36_iter_chunks : forall (T S : Type) n (fn : list T -> S -> res (list T * S)) xs rest st,
  Forall (fun x => length x = n) xs -> length rest < n ->
  iter_chunks (concat xs ++ rest) n fn st =
  ('(ys, st') <- visit fn xs st ;; Ok (concat ys ++ rest, st', length rest =? 0)).
Proof. exact @iter_chunks_visit. Qed.
Print Assumptions C36_iter_chunks.
Theorem C36_refuted :
  iter_chunks_zipped [1; 2] [3; 4; 5] 2 (fun a b (u : unit) => Ok (a, b, u)) tt = Ok ([1; 2], [3; 4; 5], tt, true).
Proof. exact C36_refuted_proof. Qed.
Print Assumptions C36_refuted.
(** missing from C36: a longer second buffer, for which [C36_zipped_reports] says what is reported *)
Theorem C36_zipped_partial : forall (T S : Type) n fn (xs : list (list T * list T)) r1 r2 (st : S),
  0 < n -> Forall (fun x => length (fst x) = n /\ length (snd x) = n) xs ->
  (length r1 < n \/ length r2 < n) -> length r2 <= length r1 ->
  iter_chunks_zipped (concat (map fst xs) ++ r1) (concat (map snd xs) ++ r2) n fn st =
  ('(ys, st') <- visit2 fn xs st ;;
   Ok (concat (map fst ys) ++ r1, concat (map snd ys) ++ r2, st', (length r1 =? 0) && (length r2 =? 0))).
Proof. exact @C36_zipped_proof. Qed.
Print Assumptions C36_zipped_partial.
Theorem C36_zipped_reports : forall (T S : Type) n fn (xs : list (list T * list T)) r1 r2 (st : S),
  0 < n -> Forall (fun x => length (fst x) = n /\ length (snd x) = n) xs ->
  (length r1 < n \/ length r2 < n) ->
  iter_chunks_zipped (concat (map fst xs) ++ r1) (concat (map snd xs) ++ r2) n fn st =
  ('(ys, st') <- visit2 fn xs st ;;
   Ok (concat (map fst ys) ++ r1, concat (map snd ys) ++ r2, st', length r1 =? 0)).
Proof. exact @iter_zipped_visit. Qed.
Print Assumptions C36_zipped_reports.
(** [visit] runs through the chunks in order *)
Example C36_case :
  visit (fun c st => Ok (rev c, st ++ c)) [[1; 2]; [3; 4]] [9] = Ok ([[2; 1]; [4; 3]], [9; 1; 2; 3; 4]) /\
  visit2 (fun c e st => Ok (e, c, st ++ c)) [([1; 2], [3; 4]); ([5; 6], [7; 8])] [9] =
    Ok ([([3; 4], [1; 2]); ([7; 8], [5; 6])], [9; 1; 2; 5; 6]).
Proof. split; reflexivity. Qed.

(** ** C37: with overflow checks ([Debug]) an overflowing product panics; none does *)
Theorem C37_no_overflow : forall (T : Type) (NT : Num T) (d : Dht T) f,
  transforms d f -> nprime (N.of_nat (dht_len d + 1)) -> dht_len d <> 1 -> (N.of_nat (dht_len d + 1) <= 2 ^ 32)%N ->
  exists D1 D2 g, raders Debug d = Ok D1 /\ raders Release d = Ok D2 /\ transforms D1 g /\ transforms D2 g.
Proof. exact @C37_proof. Qed.
Print Assumptions C37_no_overflow.
Theorem C37_product : forall m : profile, (exists a b len, mul_mod m a b len <> Ok ((a * b) mod len)) /\
  forall a b len, a < len -> b < len -> (N.of_nat len <= 2 ^ 32)%N -> mul_mod m a b len = Ok ((a * b) mod len).
Proof. exact C37_overflow_proof. Qed.
Print Assumptions C37_product.
Example C37_case : forall (T : Type) (NT : Num T), let d := @mixed_radix T NT butterfly3 butterfly4 in
  (exists f, transforms d f) /\ nprime (N.of_nat (dht_len d + 1)) /\ (N.of_nat (dht_len d + 1) <= 2 ^ 32)%N.
Proof.
  intros. split; [|split].
  - apply (tree_transforms Debug (fun _ => False)); [intros ? []|]. apply as_mixed; [apply as_bf3|apply as_bf4].
  - apply RootProofs.miller_rabin_ok. reflexivity.
  - cbn. lia.
Qed.
