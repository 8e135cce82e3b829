(** * Processing on machine arithmetic equals processing on unbounded numbers *)
From Verif Require Export Proc NewProof.
From Verif Require Import Lemmas.
From Coq Require Import NArith Lia FunctionalExtensionality.

Local Open Scope nat_scope.

Definition in_word {W : width} (n : nat) : Prop := (N.of_nat n < span)%N.
Lemma fits_le {W : width} a b : a <= b -> in_word b -> in_word a.
Proof. unfold in_word. lia. Qed.

Lemma bind_ext {A B} (r r' : res A) (k k' : A -> res B) : r = r' -> (forall a, r' = Ok a -> k a = k' a) -> bind r k = bind r' k'.
Proof. intros -> Hk. destruct r'; simpl; auto. Qed.
Lemma bind_ext1 {A B} (r : res A) (k k' : A -> res B) : (forall a, r = Ok a -> k a = k' a) -> bind r k = bind r k'.
Proof. intros. now apply bind_ext. Qed.

Lemma for_each_ext {A S} (l : list A) (f g : A -> S -> res S) s :
  (forall a s, In a l -> f a s = g a s) -> for_each l f s = for_each l g s.
Proof.
  revert s. induction l as [|a l IH]; intros s Hb; simpl; auto.
  apply bind_ext; [apply Hb; now left|]. intros s' _. apply IH. intros. apply Hb. now right.
Qed.
Lemma for_each_ext_inv {A S} (I : S -> Prop) (l : list A) (f g : A -> S -> res S) s : I s ->
  (forall a s, In a l -> I s -> f a s = g a s /\ forall s', g a s = Ok s' -> I s') -> for_each l f s = for_each l g s.
Proof.
  revert s. induction l as [|a l IH]; intros s Is Hb; simpl; auto.
  destruct (Hb a s (or_introl eq_refl) Is) as [E K]. apply bind_ext; [exact E|]. intros s' E'. apply IH; [now apply K|].
  intros. apply Hb; auto. now right.
Qed.
Lemma for_range_ext {S} lo hi (f g : nat -> S -> res S) s :
  (forall i s, lo <= i < hi -> f i s = g i s) -> for_range lo hi f s = for_range lo hi g s.
Proof. intros Hb. apply for_each_ext. intros a s' Hin. apply in_seq in Hin. apply Hb. lia. Qed.
Lemma for_range_ext_inv {S} (I : S -> Prop) lo hi (f g : nat -> S -> res S) s : I s ->
  (forall i s, lo <= i < hi -> I s -> f i s = g i s /\ forall s', g i s = Ok s' -> I s') -> for_range lo hi f s = for_range lo hi g s.
Proof. intros Is Hb. apply (for_each_ext_inv I); auto. intros a s' Hin. apply in_seq in Hin. apply Hb. lia. Qed.

Section Arith.
  Context {W : width}.
  Variable m : profile.
  Lemma umul_fits a b : in_word (a * b) -> umul m a b = Ok (a * b).
  Proof. unfold in_word. intros. apply umul_ok. rewrite <- Nat2N.inj_mul. exact H. Qed.
  Lemma uadd_fits a b : in_word (a + b) -> uadd m a b = Ok (a + b).
  Proof. unfold in_word. intros. apply uadd_ok. rewrite <- Nat2N.inj_add. exact H. Qed.
  Lemma mul_add_fits a b c : in_word (a * b + c) -> mul_add m a b c = Ok (a * b + c).
  Proof. intros H. unfold mul_add. rewrite umul_fits by (eapply fits_le; [|exact H]; lia). cbn [bind]. now rewrite uadd_fits. Qed.
  Lemma wsub_usub a b : b <= a -> wsub m a b = usub a b.
  Proof. intros H. unfold wsub, usub. destruct (Nat.leb_spec b a); [auto|lia]. Qed.
  Lemma wsub_ok a b : b <= a -> wsub m a b = Ok (a - b).
  Proof. intros H. unfold wsub. destruct (Nat.leb_spec b a); [auto|lia]. Qed.
  Lemma usub_ok a b : b <= a -> usub a b = Ok (a - b).
  Proof. intros H. unfold usub. destruct (Nat.leb_spec b a); [auto|lia]. Qed.
  (** a subtraction that may wrap, used as a checked index: both panic *)
  Lemma wrapped_idx {T B} (l : list T) a (k : T -> res B) : in_word (length l) -> (v <- wsub m a 1 ;; bind (idx l v) k) = (v <- usub a 1 ;; bind (idx l v) k).
  Proof.
    intros F. destruct a as [|a]; [|now rewrite wsub_usub by lia]. unfold wsub, usub. cbn [Nat.leb]. destruct m; [reflexivity|]. cbn [bind].
    unfold idx. destruct (nth_error _ _) eqn:E; [|reflexivity]. exfalso.
    assert (nth_error l (N.to_nat (span + N.of_nat 0 - N.of_nat 1)) <> None) as G by congruence.
    apply nth_error_Some in G. unfold in_word in F. wnum.
  Qed.
  Lemma wrapped_set {T B} (l : list T) a x (k : list T -> res B) : in_word (length l) -> (v <- wsub m a 1 ;; bind (set l v x) k) = (v <- usub a 1 ;; bind (set l v x) k).
  Proof.
    intros F. destruct a as [|a]; [|now rewrite wsub_usub by lia]. unfold wsub, usub. cbn [Nat.leb]. destruct m; [reflexivity|]. cbn [bind].
    unfold set. destruct (Nat.ltb_spec (N.to_nat (span + N.of_nat 0 - N.of_nat 1)) (length l)); [|reflexivity]. unfold in_word in F. wnum.
  Qed.
End Arith.

Section Same.
  Context {W : width} {T : Type} {NT : Num T}.
  Variable m : profile.

  (** ** array_utils *)
  Lemma half_rev_same (i o : list T) w h : 0 < w -> in_word (w * h + w) ->
    transpose_half_rev_out_run m i o w h = transpose_half_rev_out i o w h.
  Proof.
    intros Hw F. unfold transpose_half_rev_out_run, transpose_half_rev_out. cbv zeta. apply bind_ext1. intros _ _.
    rewrite umul_fits by (eapply fits_le; [|exact F]; lia). cbn [bind]. apply bind_ext1. intros _ _.
    assert (w / 2 + 1 <= w \/ w = 1) as L by (pose proof (Nat.div_lt w 2); lia).
    assert (w / 2 + 1 <= w) as L2 by (destruct L as [L| ->]; [exact L|simpl; lia]).
    rewrite uadd_fits by (eapply fits_le; [|exact F]; lia). cbn [bind].
    apply for_range_ext. intros r o' Hr. rewrite !wsub_ok, !usub_ok by lia. cbn [bind]. rewrite !wsub_ok, !usub_ok by lia. cbn [bind].
    assert (B1 : forall c, c < w -> r * w + c <= w * h + w) by (intros; nia).
    assert (B2 : forall c r', r' < h -> c < w -> c * h + r' <= w * h + w) by (intros; nia).
    apply bind_ext.
    - apply for_range_ext. intros c o2 Hc. rewrite mul_add_fits by (eapply fits_le; [|exact F]; apply B1; lia). cbn [bind]. apply bind_ext1. intros v _.
      rewrite mul_add_fits by (eapply fits_le; [|exact F]; apply B2; lia). reflexivity.
    - intros o2 _. apply for_range_ext. intros c o3 Hc. rewrite mul_add_fits by (eapply fits_le; [|exact F]; apply B1; lia). cbn [bind]. apply bind_ext1. intros v _.
      rewrite mul_add_fits by (eapply fits_le; [|exact F]; apply B2; lia). reflexivity.
  Qed.

  (** ** DhtNaive *)
  Lemma naive_same (tw i o : list T) : in_word (length tw + length o) -> naive_perform_run m tw i o = naive_perform tw i o.
  Proof.
    intros F. unfold naive_perform_run, naive_perform. apply for_range_ext. intros k o' Hk.
    apply bind_ext; [|reflexivity].
    apply (for_each_ext_inv (fun p => snd p < length tw + length o)); [simpl; lia|].
    intros c [v t] _ Ht. simpl in Ht. unfold idx. destruct (nth_error tw t) eqn:E; cbn [bind]; [|split; [reflexivity|discriminate]].
    assert (t < length tw) by (apply nth_error_Some; congruence).
    rewrite uadd_fits by (eapply fits_le; [|exact F]; lia). cbn [bind].
    destruct (Nat.leb_spec (length tw) (t + k)).
    - rewrite wsub_ok, usub_ok by lia. cbn [bind]. split; [reflexivity|]. intros s' [= <-]. simpl. lia.
    - cbn [bind]. split; [reflexivity|]. intros s' [= <-]. simpl. lia.
  Qed.

  (** ** MixedRadix *)
  Lemma cell_same h w r rr c tw (b : list T) : 0 < r < w -> 0 < rr < w -> 0 < c < h -> in_word (w * h + h) ->
    mixed_cell_run m h r rr c tw b = mixed_cell h r rr c tw b.
  Proof.
    intros Hr Hrr Hc F. unfold mixed_cell_run, mixed_cell. rewrite wsub_ok, usub_ok by lia. cbn [bind].
    assert (B : forall x y, x < w -> y < h -> h * x + y <= w * h + h) by (intros; nia).
    rewrite (mul_add_fits m h r c) by (eapply fits_le; [|exact F]; apply B; lia).
    rewrite (mul_add_fits m h r (h - c)) by (eapply fits_le; [|exact F]; apply B; lia).
    rewrite (mul_add_fits m h rr c) by (eapply fits_le; [|exact F]; apply B; lia).
    rewrite (mul_add_fits m h rr (h - c)) by (eapply fits_le; [|exact F]; apply B; lia).
    reflexivity.
  Qed.
  Lemma cell_mid_same h w r c tw (b : list T) : 0 < r < w -> 0 < c < h -> in_word (w * h + h) ->
    mixed_cell_mid_run m h r c tw b = mixed_cell_mid h r c tw b.
  Proof.
    intros Hr Hc F. unfold mixed_cell_mid_run, mixed_cell_mid. rewrite wsub_ok, usub_ok by lia. cbn [bind].
    assert (B : forall x y, x < w -> y < h -> h * x + y <= w * h + h) by (intros; nia).
    rewrite (mul_add_fits m h r c) by (eapply fits_le; [|exact F]; apply B; lia).
    rewrite (mul_add_fits m h r (h - c)) by (eapply fits_le; [|exact F]; apply B; lia).
    reflexivity.
  Qed.
  Lemma half_bounds n : 2 <= n -> 1 <= n / 2 /\ n / 2 < n.
  Proof. intros. pose proof (Nat.div_mod n 2 ltac:(lia)). pose proof (Nat.mod_upper_bound n 2 ltac:(lia)). lia. Qed.
  Lemma mixed_apply_same w h tws (b : list T) : in_word (w * h + h + w + 1) ->
    mixed_apply_twiddles_run m w h tws b = mixed_apply_twiddles w h tws b.
  Proof.
    intros F. unfold mixed_apply_twiddles_run, mixed_apply_twiddles. cbv zeta.
    rewrite uadd_fits by (eapply fits_le; [|exact F]; lia). cbn [bind].
    assert (h / 2 <= h) by (apply Nat.div_le_upper_bound; lia).
    rewrite uadd_fits by (eapply fits_le; [|exact F]; lia). cbn [bind]. rewrite wsub_ok, usub_ok by lia. cbn [bind].
    destruct (Nat.ltb_spec w 2); [reflexivity|]. destruct (Nat.ltb_spec h 2); [reflexivity|]. cbn [orb].
    destruct (half_bounds w) as [W1 W2]; [auto|]. destruct (half_bounds h) as [H1' H2']; [auto|].
    assert (W3 : (w + 1) / 2 <= w).
    { pose proof (Nat.div_mod (w + 1) 2 ltac:(lia)). pose proof (Nat.mod_upper_bound (w + 1) 2 ltac:(lia)). lia. }
    apply bind_ext1. intros ch _. apply bind_ext.
    - apply for_each_ext. intros [r tc] b' Hin. apply in_combine_l in Hin. apply in_seq in Hin.
      rewrite wsub_ok, usub_ok by lia. cbn [bind]. apply for_each_ext. intros [c t] b'' Hc. apply in_combine_l in Hc. apply in_seq in Hc.
      apply (cell_same h w); try lia. eapply fits_le; [|exact F]; lia.
    - intros b' _. destruct (w mod 2 =? 0); [|reflexivity]. apply bind_ext1. intros tc _.
      apply for_each_ext. intros [c t] b'' Hc. apply in_combine_l in Hc. apply in_seq in Hc. apply (cell_mid_same h w); try lia. eapply fits_le; [|exact F]; lia.
  Qed.
  Lemma row_begin_same w : in_word (w + 1) -> reversal_row_begin_run m w = Ok (reversal_row_begin w).
  Proof.
    intros F. unfold reversal_row_begin_run, reversal_row_begin. destruct (w mod 2 =? 0).
    - apply uadd_fits. eapply fits_le; [|exact F]. assert (w / 2 <= w) by (apply Nat.div_le_upper_bound; lia). lia.
    - rewrite uadd_fits by auto. reflexivity.
  Qed.
  Lemma row_begin_le w : reversal_row_begin w <= w + 1.
  Proof.
    unfold reversal_row_begin. destruct (w mod 2 =? 0).
    - assert (w / 2 <= w) by (apply Nat.div_le_upper_bound; lia). lia.
    - apply Nat.div_le_upper_bound; lia.
  Qed.
  Lemma mixed_inplace_same dw dh w h tws (b s : list T) : in_word (w * h + h + w + 1) ->
    mixed_inplace_run m dw dh (w * h) w h tws b s = mixed_inplace dw dh w h tws b s.
  Proof.
    intros F. unfold mixed_inplace_run, mixed_inplace. cbv zeta. apply bind_ext1. intros [s1 i1] _. apply bind_ext1. intros s2 _.
    rewrite row_begin_same by (eapply fits_le; [|exact F]; lia). cbn [bind].
    rewrite umul_fits by (eapply fits_le; [|exact F]; pose proof (row_begin_le w); nia). cbn [bind].
    apply bind_ext1. intros s3 _. apply bind_ext1. intros [[s4 b4] i4] _. rewrite mixed_apply_same by auto.
    apply bind_ext1. intros s5 _. apply bind_ext1. intros b5 _. apply bind_ext1. intros [[b6 s6] i6] _.
    rewrite uadd_fits by (eapply fits_le; [|exact F]; lia). cbn [bind].
    assert ((h + 1) / 2 <= h + 1) by (apply Nat.div_le_upper_bound; lia).
    rewrite umul_fits by (eapply fits_le; [|exact F]; nia). reflexivity.
  Qed.
  Lemma mixed_oop_same dw dh w h tws (i o s : list T) : in_word (w * h + h + w + 1) ->
    mixed_oop_run m dw dh w h tws i o s = mixed_oop dw dh w h tws i o s.
  Proof.
    intros F. unfold mixed_oop_run, mixed_oop. cbv zeta. apply bind_ext1. intros s2 _.
    rewrite row_begin_same by (eapply fits_le; [|exact F]; lia). cbn [bind].
    rewrite umul_fits by (eapply fits_le; [|exact F]; pose proof (row_begin_le w); nia). cbn [bind].
    apply bind_ext1. intros s3 _. apply bind_ext1. intros [[s4 b4] i4] _. rewrite mixed_apply_same by auto.
    apply bind_ext1. intros s5 _. apply bind_ext1. intros b5 _. apply bind_ext1. intros [[b6 s6] i6] _.
    rewrite uadd_fits by (eapply fits_le; [|exact F]; lia). cbn [bind].
    assert ((h + 1) / 2 <= h + 1) by (apply Nat.div_le_upper_bound; lia).
    rewrite umul_fits by (eapply fits_le; [|exact F]; nia). reflexivity.
  Qed.

  (** ** the Nxn algorithms *)
  Lemma columns_same {A} k h bf (tws : list A) pair (o : list T) : in_word (h + 1) ->
    columns_apply_run m k h bf tws pair o = columns_apply k h bf tws pair o.
  Proof.
    intros F. unfold columns_apply_run, columns_apply. apply bind_ext1. intros ? _. do 4 (apply bind_ext1; intros ? _).
    assert (h / 2 <= h) by (apply Nat.div_le_upper_bound; lia).
    rewrite uadd_fits by (eapply fits_le; [|exact F]; lia). cbn [bind]. rewrite Nat.add_sub.
    apply for_each_ext. intros [c t] o' Hc. apply in_combine_l in Hc. apply in_seq in Hc.
    rewrite wsub_usub by lia. reflexivity.
  Qed.
  Lemma apply2_same h tws (o : list T) : in_word (h + 1) -> radix2_apply_run m h tws o = radix2_apply h tws o.
  Proof. apply columns_same. Qed.
  Lemma apply3_same b h tws (o : list T) : in_word (h + 1) -> radix3_apply_run m b h tws o = radix3_apply b h tws o.
  Proof. apply columns_same. Qed.
  Lemma apply4_same h tws (o : list T) : in_word (h + 1) -> radix4_apply_run m h tws o = radix4_apply h tws o.
  Proof. intros. apply bind_ext1. intros. now apply columns_same. Qed.
  Lemma apply5_same b h tws (o : list T) : in_word (h + 1) -> radix5_apply_run m b h tws o = radix5_apply b h tws o.
  Proof. intros. apply bind_ext1. intros. now apply columns_same. Qed.
  Lemma apply6_same b h tws (o : list T) : in_word (h + 1) -> radix6_apply_run m b h tws o = radix6_apply b h tws o.
  Proof. intros. apply bind_ext1. intros. now apply columns_same. Qed.

  Lemma nxn_inplace_same k d h ap ap' (b s : list T) : 0 < k -> in_word (k * h + k) -> (forall o, ap o = ap' o) ->
    nxn_inplace_run m k d h ap b s = nxn_inplace k d h ap' b s.
  Proof.
    intros K F E. unfold nxn_inplace_run, nxn_inplace. rewrite half_rev_same by auto. apply bind_ext1. intros s1 _.
    apply bind_ext1. intros [[s2 b2] e2] _. now rewrite E.
  Qed.
  Lemma nxn_oop_same k d h ap ap' (i o s : list T) : 0 < k -> in_word (k * h + k) -> (forall o, ap o = ap' o) ->
    nxn_oop_run m k d h ap i o s = nxn_oop k d h ap' i o s.
  Proof.
    intros K F E. unfold nxn_oop_run, nxn_oop. rewrite half_rev_same by auto. apply bind_ext1. intros s1 _.
    apply bind_ext1. intros [s2 b2] _. now rewrite E.
  Qed.

  (** ** SplitRadix *)
  Lemma split_cell_same q tws i st : i <= q -> in_word (2 * i + 1) -> split_cell_run m q tws i st = @split_cell T _ q tws i st.
  Proof.
    intros Hi F. unfold split_cell_run, split_cell. destruct st as [[[h0 h1] q1] q3].
    rewrite umul_fits by (eapply fits_le; [|exact F]; lia). rewrite mul_add_fits by auto. cbn [bind]. rewrite wsub_usub by auto. reflexivity.
  Qed.
  Lemma split_apply_same len tws (b : list T) : in_word (len + 1) -> split_apply_twiddles_run m len tws b = split_apply_twiddles len tws b.
  Proof.
    intros F. unfold split_apply_twiddles_run, split_apply_twiddles. cbv zeta.
    assert (E8 : len / 8 = len / 4 / 2) by (rewrite Nat.div_div by lia; reflexivity).
    assert (L4 : len / 4 <= len) by (apply Nat.div_le_upper_bound; lia).
    assert (L8 : 2 * (len / 8) <= len / 4) by (rewrite E8; apply Nat.mul_div_le; lia).
    do 3 (apply bind_ext1; intros [? ?] _). do 8 (apply bind_ext1; intros ? _).
    rewrite uadd_fits by (eapply fits_le; [|exact F]; lia). cbn [bind].
    apply bind_ext; [|reflexivity]. apply for_range_ext. intros i st Hi. apply split_cell_same; [lia|]. eapply fits_le; [|exact F]. lia.
  Qed.
  Lemma split_inplace_same dq dh len tws (b s : list T) : in_word (len + 1) -> split_inplace_run m dq dh len tws b s = split_inplace dq dh len tws b s.
  Proof.
    intros F. unfold split_inplace_run, split_inplace. cbv zeta. rewrite split_apply_same by auto.
    apply bind_ext1; intros b1 _. apply bind_ext1; intros [? ?] _. apply bind_ext1; intros [? ?] _. apply bind_ext1; intros [[? ?] ?] _.
    apply bind_ext1; intros [q1 q3] _. apply bind_ext; [|reflexivity]. apply for_each_ext. intros i o Hi. apply in_rev in Hi. apply in_seq in Hi.
    pose proof (Nat.mul_div_le len 4 ltac:(lia)).
    rewrite umul_fits by (eapply fits_le; [|exact F]; lia). rewrite !mul_add_fits by (eapply fits_le; [|exact F]; lia). reflexivity.
  Qed.
  Lemma gather_same (ev q1 q3 o : list T) : in_word (length o + 1) ->
    for_range 0 (length o / 4) (fun i output =>
        s <- umul m i 2 ;; v <- uidx ev s ;; output <- uset output (4 * i + 0) v ;;
        v <- uidx q1 i ;; output <- uset output (4 * i + 1) v ;;
        s <- mul_add m i 2 1 ;; v <- uidx ev s ;; output <- uset output (4 * i + 2) v ;;
        v <- uidx q3 i ;; uset output (4 * i + 3) v) o =
    for_range 0 (length o / 4) (fun i output =>
        v <- uidx ev (i * 2) ;; output <- uset output (4 * i + 0) v ;;
        v <- uidx q1 i ;; output <- uset output (4 * i + 1) v ;;
        v <- uidx ev (i * 2 + 1) ;; output <- uset output (4 * i + 2) v ;;
        v <- uidx q3 i ;; uset output (4 * i + 3) v) o.
  Proof.
    intros F. apply for_range_ext. intros i o' Hi. pose proof (Nat.mul_div_le (length o) 4 ltac:(lia)).
    rewrite umul_fits by (eapply fits_le; [|exact F]; lia). rewrite !mul_add_fits by (eapply fits_le; [|exact F]; lia). reflexivity.
  Qed.
  (** the instances called keep the lengths *)
  Definition keeps_inplace (d : Dht T) : Prop := forall b s b' s', dht_process_with_scratch d b s = Ok (b', s') -> length b' = length b /\ length s' = length s.
  Lemma split_oop_same dq dh len tws (i o s : list T) : keeps_inplace dq -> keeps_inplace dh -> length o = len -> in_word (len + 1) ->
    split_oop_run m dq dh len tws i o s = split_oop dq dh len tws i o s.
  Proof.
    intros Kq Kh Lo F. unfold split_oop_run, split_oop. cbv zeta. rewrite split_apply_same by auto.
    apply bind_ext1; intros b1 _. apply bind_ext1; intros [ev od] _. apply bind_ext1; intros [ev' o1] E1. apply bind_ext1; intros [od' o2] E2.
    apply Kh in E1. apply Kq in E2. apply bind_ext1; intros [q1 q3] _. rewrite gather_same; [reflexivity|].
    replace (length o2) with len by lia. exact F.
  Qed.

  (** ** Radix4 *)
  Lemma prepare_same b l : forall fuel rv (i o : list T) st, 0 < b -> 0 < st -> in_word (4 * (b * 4 ^ l * st)) ->
    prepare_radix4_run m fuel rv (b * 4 ^ l) b i o st = prepare_radix4 fuel rv (b * 4 ^ l) b i o st.
  Proof.
    induction l as [|l IH]; intros fuel rv i o st Hb Hs F; (destruct fuel as [|fuel]; [reflexivity|]); cbn [prepare_radix4_run prepare_radix4].
    - simpl (4 ^ 0) in *. rewrite Nat.mul_1_r in *. rewrite Nat.eqb_refl. apply for_range_ext. intros j o' Hj.
      destruct rv; cbn [bind].
      + rewrite wsub_ok, usub_ok by lia. cbn [bind]. rewrite wsub_ok, usub_ok by lia. cbn [bind]. rewrite umul_fits by (eapply fits_le; [|exact F]; nia). reflexivity.
      + rewrite umul_fits by (eapply fits_le; [|exact F]; nia). reflexivity.
    - assert (P : 0 < 4 ^ l) by (pose proof (Nat.pow_nonzero 4 l); lia). rewrite Nat.pow_succ_r' in *.
      assert (Q : b * 4 ^ l >= 1) by nia. set (q := 4 ^ l) in *. clearbody q.
      destruct (Nat.eqb_spec (b * (4 * q)) b); [nia|].
      assert (E4 : b * (4 * q) / 4 = b * q) by (replace (b * (4 * q)) with (b * q * 4) by lia; now rewrite Nat.div_mul).
      rewrite E4. apply for_range_ext. intros j o' Hj.
      rewrite umul_fits by (eapply fits_le; [|exact F]; nia). cbn [bind]. apply bind_ext1. intros [x y] _.
      rewrite umul_fits by (eapply fits_le; [|exact F]; nia). cbn [bind]. unfold on_tail. apply bind_ext1. intros [x' y'] _.
      rewrite umul_fits by (eapply fits_le; [|exact F]; nia). cbn [bind]. rewrite IH; [reflexivity|auto|lia|]. eapply fits_le; [|exact F]. nia.
  Qed.
  Lemma cross_same fuel : forall len cs tws (o : list T), 8 <= cs \/ len < cs -> in_word (4 * len) -> in_word (4 * cs) ->
    radix4_cross_run m fuel len cs tws o = radix4_cross fuel len cs tws o.
  Proof.
    induction fuel as [|fuel IH]; intros len cs tws o H8 F Fc; [reflexivity|]. cbn [radix4_cross_run radix4_cross].
    destruct (Nat.leb_spec cs len) as [L|L]; [|reflexivity]. destruct H8 as [H8|H8]; [|lia].
    assert (cs / 4 <= cs) by (apply Nat.div_le_upper_bound; lia).
    apply bind_ext.
    - apply for_range_ext. intros i o' Hi. assert (i * cs <= len) by (pose proof (Nat.mul_div_le len cs ltac:(lia)); nia).
      rewrite umul_fits by (eapply fits_le; [|exact F]; lia). cbn [bind]. unfold on_tail. apply bind_ext1. intros [x y] _.
      rewrite apply4_same by (eapply fits_le; [|exact F]; lia). reflexivity.
    - intros o' _. rewrite umul_fits by (eapply fits_le; [|exact F]; lia). cbn [bind].
      assert (2 <= cs * 2 / 4) by (apply Nat.div_le_lower_bound; lia).
      rewrite wsub_usub by lia. apply bind_ext1. intros off _. apply bind_ext1. intros [x y] _.
      rewrite umul_fits by (eapply fits_le; [|exact Fc]; lia). cbn [bind]. destruct (Nat.le_gt_cases (cs * 4) len).
      + apply IH; auto; [lia|]. eapply fits_le; [|exact F]. lia.
      + destruct fuel; [reflexivity|]. cbn [radix4_cross_run radix4_cross]. destruct (Nat.leb_spec (cs * 4) len); [lia|reflexivity].
  Qed.
End Same.
