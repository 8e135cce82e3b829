(** * List, slice and loop lemmas *)
From Verif Require Export Num ArrayUtils.

Lemma bind_ok {A B} (m : res A) (k : A -> res B) a : m = Ok a -> bind m k = k a.
Proof. intros ->. reflexivity. Qed.

Section ListLemmas.
  Context {T : Type}.
  Implicit Types (l : list T).

  Lemma upd_length l i v : length (upd l i v) = length l.
  Proof. revert i; induction l as [|x l IH]; intros [|i]; simpl; auto. Qed.

  Lemma nth_upd l i j v d :
    nth j (upd l i v) d = if (j =? i) && (i <? length l) then v else nth j l d.
  Proof.
    revert i j; induction l as [|x l IH]; intros i j.
    - simpl. rewrite andb_false_r. reflexivity.
    - destruct i as [|i], j as [|j]; simpl; auto.
      rewrite IH. reflexivity.
  Qed.

  Lemma nth_upd_eq l i v d : i < length l -> nth i (upd l i v) d = v.
  Proof. intros. rewrite nth_upd, Nat.eqb_refl. simpl. apply Nat.ltb_lt in H. now rewrite H. Qed.

  Lemma nth_upd_neq l i j v d : j <> i -> nth j (upd l i v) d = nth j l d.
  Proof. intros. rewrite nth_upd. apply Nat.eqb_neq in H. now rewrite H. Qed.

  Lemma idx_ok d l i : i < length l -> idx l i = Ok (nth i l d).
  Proof. intros. unfold idx. now rewrite (nth_error_nth' l d H). Qed.

  Lemma uidx_ok d l i : i < length l -> uidx l i = Ok (nth i l d).
  Proof. intros. unfold uidx. now rewrite (nth_error_nth' l d H). Qed.

  Lemma set_ok l i v : i < length l -> set l i v = Ok (upd l i v).
  Proof. intros. unfold set. apply Nat.ltb_lt in H. now rewrite H. Qed.

  Lemma uset_ok l i v : i < length l -> uset l i v = Ok (upd l i v).
  Proof. intros. unfold uset. apply Nat.ltb_lt in H. now rewrite H. Qed.

  Lemma split_at_ok l m : m <= length l -> split_at l m = Ok (firstn m l, skipn m l).
  Proof. intros. unfold split_at. apply Nat.leb_le in H. now rewrite H. Qed.

  Lemma split_at_app l1 l2 m : length l1 = m -> split_at (l1 ++ l2) m = Ok (l1, l2).
  Proof.
    intros <-. rewrite split_at_ok by (rewrite app_length; lia).
    now rewrite firstn_app, Nat.sub_diag, firstn_all, firstn_O, app_nil_r,
      skipn_app, Nat.sub_diag, skipn_all, skipn_O.
  Qed.

  Lemma nth_list_ext d (l1 l2 : list T) :
    length l1 = length l2 -> (forall i, i < length l1 -> nth i l1 d = nth i l2 d) -> l1 = l2.
  Proof. intros. apply (nth_ext _ _ d d); auto. Qed.

  Lemma nth_firstn l m i d : i < m -> nth i (firstn m l) d = nth i l d.
  Proof.
    revert m i; induction l as [|x l IH]; intros [|m] [|i] H; simpl; auto; try lia.
    apply IH. lia.
  Qed.

  Lemma nth_skipn l m i d : nth i (skipn m l) d = nth (m + i) l d.
  Proof.
    revert m; induction l as [|x l IH]; intros [|m]; simpl; auto.
    - destruct i; reflexivity.
  Qed.

  Lemma skipn_add l m n : skipn m (skipn n l) = skipn (m + n) l.
  Proof.
    revert n; induction l as [|x l IH]; intros [|n]; simpl; rewrite ?Nat.add_0_r, ?skipn_nil; auto.
    rewrite IH. now rewrite Nat.add_succ_r.
  Qed.

  Lemma firstn_length_le' l m : m <= length l -> length (firstn m l) = m.
  Proof. intros. rewrite firstn_length. lia. Qed.

  Lemma skipn_app_exact l1 l2 m : length l1 = m -> skipn m (l1 ++ l2) = l2.
  Proof. intros <-. now rewrite skipn_app, skipn_all, Nat.sub_diag, skipn_O. Qed.

  Lemma firstn_app_exact l1 l2 m : length l1 = m -> firstn m (l1 ++ l2) = l1.
  Proof. intros <-. now rewrite firstn_app, firstn_all, Nat.sub_diag, firstn_O, app_nil_r. Qed.

  Lemma nth_seq' a n i d : i < n -> nth i (seq a n) d = a + i.
  Proof. intros. now apply seq_nth. Qed.

  Lemma nth_map_seq (f : nat -> T) a n i d : i < n -> nth i (map f (seq a n)) d = f (a + i).
  Proof.
    intros. rewrite nth_indep with (d' := f 0) by (now rewrite map_length, seq_length).
    rewrite map_nth, seq_nth; auto.
  Qed.

  Lemma list_tab d l : l = map (fun i => nth i l d) (seq 0 (length l)).
  Proof.
    apply (nth_list_ext d). now rewrite map_length, seq_length.
    intros. now rewrite nth_map_seq by auto.
  Qed.

  Lemma map_seq_ext (f g : nat -> T) n :
    (forall i, i < n -> f i = g i) -> map f (seq 0 n) = map g (seq 0 n).
  Proof. intros. apply map_ext_in. intros a Ha. apply in_seq in Ha. apply H. lia. Qed.

  Lemma nth_rev' l i d : i < length l -> nth i (rev l) d = nth (length l - 1 - i) l d.
  Proof. intros. rewrite rev_nth by auto. f_equal. lia. Qed.
End ListLemmas.

Section Tab.
  Context {T : Type}.

  (** a [k] x [h] matrix stored row by row *)
  Definition tab (k h : nat) (g : nat -> nat -> T) : list T :=
    flat_map (fun r => map (g r) (seq 0 h)) (seq 0 k).

  Lemma flat_map_length_const {A} (f : A -> list T) l n :
    (forall a, In a l -> length (f a) = n) -> length (flat_map f l) = length l * n.
  Proof.
    induction l as [|a l IH]; intros; simpl; auto.
    rewrite app_length, IH, H; simpl; auto. intros. apply H. now right.
  Qed.

  Lemma nth_flat_map_const {A} (f : A -> list T) l n a0 d r c :
    (forall a, In a l -> length (f a) = n) -> r < length l -> c < n ->
    nth (r * n + c) (flat_map f l) d = nth c (f (nth r l a0)) d.
  Proof.
    revert r; induction l as [|a l IH]; intros r Hl Hr Hc; simpl in *; [lia|].
    destruct r as [|r].
    - simpl. rewrite app_nth1; auto. rewrite Hl; auto.
    - rewrite app_nth2; rewrite (Hl a) by auto; [|nia].
      replace (S r * n + c - n) with (r * n + c) by nia.
      apply IH; auto; lia.
  Qed.

  Lemma tab_length k h g : length (tab k h g) = k * h.
  Proof.
    unfold tab. rewrite (flat_map_length_const _ _ h), seq_length; auto.
    intros. now rewrite map_length, seq_length.
  Qed.

  Lemma nth_tab k h g r c d : r < k -> c < h -> nth (r * h + c) (tab k h g) d = g r c.
  Proof.
    intros. unfold tab. rewrite (nth_flat_map_const _ _ h 0 d); rewrite ?seq_length; auto.
    - rewrite seq_nth by auto. now rewrite nth_map_seq.
    - intros. now rewrite map_length, seq_length.
  Qed.

  Lemma rc_bound k h r c : r < k -> c < h -> r * h + c < k * h.
  Proof. intros. nia. Qed.

  Lemma rc_split k h i : i < k * h -> exists r c, r < k /\ c < h /\ i = r * h + c.
  Proof.
    intros. assert (h <> 0) by nia.
    exists (i / h), (i mod h). repeat split.
    - apply Nat.div_lt_upper_bound; nia.
    - now apply Nat.mod_upper_bound.
    - rewrite (Nat.div_mod i h) at 1; lia.
  Qed.

  Lemma rc_inj h r c r' c' : c < h -> c' < h -> r * h + c = r' * h + c' -> r = r' /\ c = c'.
  Proof. intros. assert (r = r') by nia. subst. lia. Qed.

  (** two buffers of k*h elements agreeing on every (row, column) are equal *)
  Lemma mat_ext d k h (l1 l2 : list T) :
    length l1 = k * h -> length l2 = k * h ->
    (forall r c, r < k -> c < h -> nth (r * h + c) l1 d = nth (r * h + c) l2 d) -> l1 = l2.
  Proof.
    intros H1 H2 H. apply (nth_list_ext d); [congruence|].
    intros i Hi. rewrite H1 in Hi. destruct (rc_split _ _ _ Hi) as (r & c & Hr & Hc & ->). auto.
  Qed.

  Lemma tab_ext k h g g' :
    (forall r c, r < k -> c < h -> g r c = g' r c) -> tab k h g = tab k h g'.
  Proof.
    intros. unfold tab. rewrite !flat_map_concat_map. f_equal. apply map_ext_in. intros r Hr.
    apply in_seq in Hr. apply map_ext_in. intros c Hc. apply in_seq in Hc. apply H; lia.
  Qed.

  Lemma flat_map_ext_in {A} (f g : A -> list T) l :
    (forall a, In a l -> f a = g a) -> flat_map f l = flat_map g l.
  Proof. intros. rewrite !flat_map_concat_map. f_equal. now apply map_ext_in. Qed.
End Tab.

Section Chunks.
  Context {T : Type}.
  (** [n] elements starting at [a] *)
  Definition slice (l : list T) (a n : nat) : list T := firstn n (skipn a l).

  Lemma slice_length l a n : a + n <= length l -> length (slice l a n) = n.
  Proof. intros. unfold slice. rewrite firstn_length, skipn_length. lia. Qed.

  Lemma nth_slice l a n i d : i < n -> nth i (slice l a n) d = nth (a + i) l d.
  Proof. intros. unfold slice. now rewrite nth_firstn, nth_skipn. Qed.

  Lemma slice_tab k h (g : nat -> nat -> T) r :
    r < k -> slice (tab k h g) (r * h) h = map (g r) (seq 0 h).
  Proof.
    intros. destruct h as [|h']. { now rewrite Nat.mul_0_r. } set (h := S h') in *.
    assert (r * h + h <= k * h) by nia.
    assert (E : length (slice (tab k h g) (r * h) h) = h) by (apply slice_length; rewrite tab_length; auto).
    apply (nth_list_ext (g 0 0)).
    - now rewrite E, map_length, seq_length.
    - intros i Hi. rewrite E in Hi. now rewrite nth_slice, nth_tab, nth_map_seq.
  Qed.

  (** apply [f] to every full chunk of [n] elements *)
  Definition map_chunks (n : nat) (f : list T -> list T) (l : list T) : list T :=
    flat_map (fun i => f (slice l (i * n) n)) (seq 0 (length l / n)).

  Lemma map_chunks_nil n f : map_chunks n f [] = [].
  Proof. unfold map_chunks. destruct n; [reflexivity|]. now rewrite Nat.div_0_l. Qed.

  Lemma flat_map_seq_shift (f : nat -> list T) a n :
    flat_map f (seq (S a) n) = flat_map (fun i => f (S i)) (seq a n).
  Proof. revert a; induction n; intros; simpl; auto. now rewrite IHn. Qed.

  Lemma slice_app2 (l1 l2 : list T) a n :
    slice (l1 ++ l2) (length l1 + a) n = slice l2 a n.
  Proof. unfold slice. rewrite skipn_app. rewrite skipn_all2 by lia. simpl.
    now replace (length l1 + a - length l1) with a by lia. Qed.

  Lemma slice_app1 (l1 l2 : list T) n : n = length l1 -> slice (l1 ++ l2) 0 n = l1.
  Proof. intros ->. unfold slice. rewrite skipn_O. now apply firstn_app_exact. Qed.

  Lemma map_chunks_cons n f (c l : list T) :
    0 < n -> length c = n -> map_chunks n f (c ++ l) = f c ++ map_chunks n f l.
  Proof.
    intros Hn Hc. unfold map_chunks. rewrite app_length, Hc.
    replace ((n + length l) / n) with (S (length l / n)).
    2:{ replace (n + length l) with (length l + 1 * n) by lia. rewrite Nat.div_add by lia. lia. }
    simpl. rewrite slice_app1 by auto. f_equal.
    rewrite flat_map_seq_shift. apply flat_map_ext_in. intros a _.
    replace (S a * n) with (length c + a * n) by lia. now rewrite slice_app2.
  Qed.

  Lemma map_chunks_one n f (c : list T) : 0 < n -> length c = n -> map_chunks n f c = f c.
  Proof. intros. rewrite <- (app_nil_r c) at 1. rewrite map_chunks_cons by auto.
    now rewrite map_chunks_nil, app_nil_r. Qed.

  Lemma map_chunks_length n m f (l : list T) :
    0 < n -> length l = m * n -> (forall c, length c = n -> length (f c) = n) ->
    length (map_chunks n f l) = m * n.
  Proof.
    intros Hn Hl Hf. unfold map_chunks. rewrite Hl, Nat.div_mul by lia.
    rewrite (flat_map_length_const _ _ n), seq_length; auto.
    intros a Ha. apply in_seq in Ha. apply Hf, slice_length. nia.
  Qed.

  Lemma nth_map_chunks n m f (l : list T) r c d :
    0 < n -> length l = m * n -> (forall c, length c = n -> length (f c) = n) ->
    r < m -> c < n ->
    nth (r * n + c) (map_chunks n f l) d = nth c (f (slice l (r * n) n)) d.
  Proof.
    intros Hn Hl Hf Hr Hc. unfold map_chunks. rewrite Hl, Nat.div_mul by lia.
    rewrite (nth_flat_map_const _ _ n 0 d); rewrite ?seq_length; auto.
    - now rewrite seq_nth.
    - intros a Ha. apply in_seq in Ha. apply Hf, slice_length. nia.
  Qed.

  Lemma slice_map_chunks n m f (l : list T) r :
    0 < n -> length l = m * n -> (forall c, length c = n -> length (f c) = n) ->
    r < m -> slice (map_chunks n f l) (r * n) n = f (slice l (r * n) n).
  Proof.
    intros Hn Hl Hf Hr.
    assert (L : length (slice l (r * n) n) = n) by (apply slice_length; nia).
    assert (d : T) by (destruct (slice l (r * n) n); simpl in *; [lia|auto]).
    assert (E : length (slice (map_chunks n f l) (r * n) n) = n).
    { apply slice_length. rewrite (map_chunks_length n m); auto. nia. }
    apply (nth_list_ext d). { now rewrite E, Hf. }
    intros i Hi. rewrite E in Hi. rewrite nth_slice by auto. now apply (nth_map_chunks n m).
  Qed.

  Lemma map_chunks_ext n m f g (l : list T) :
    0 < n -> length l = m * n -> (forall c, length c = n -> f c = g c) ->
    map_chunks n f l = map_chunks n g l.
  Proof.
    intros Hn Hl Hf. unfold map_chunks. rewrite Hl, Nat.div_mul by lia.
    apply flat_map_ext_in. intros a Ha. apply in_seq in Ha. apply Hf, slice_length. nia.
  Qed.

  Lemma map_chunks_tab n m f (g : nat -> nat -> T) :
    0 < n ->
    map_chunks n f (tab m n g) = flat_map (fun r => f (map (g r) (seq 0 n))) (seq 0 m).
  Proof.
    intros. unfold map_chunks. rewrite tab_length, Nat.div_mul by lia.
    apply flat_map_ext_in. intros a Ha. apply in_seq in Ha. now rewrite slice_tab by lia.
  Qed.

  Lemma chunks_go_spec fuel n m (l : list T) :
    0 < n -> length l = m * n -> m <= fuel ->
    chunks_go fuel n l = map (fun i => slice l (i * n) n) (seq 0 m).
  Proof.
    revert m l; induction fuel as [|fuel IH]; intros m l Hn Hl Hf.
    - destruct m; [reflexivity|lia].
    - destruct m as [|m]; simpl.
      + destruct (Nat.leb_spec n (length l)); [nia|reflexivity].
      + destruct (Nat.leb_spec n (length l)); [|nia].
        f_equal. rewrite (IH m); [|auto|rewrite skipn_length; nia|lia].
        rewrite <- seq_shift, map_map. apply map_ext. intros i.
        unfold slice. rewrite skipn_add. do 2 f_equal. lia.
  Qed.

  Lemma chunks_exact_ok n m (l : list T) :
    0 < n -> length l = m * n ->
    chunks_exact n l = Ok (map (fun i => slice l (i * n) n) (seq 0 m)).
  Proof.
    intros. unfold chunks_exact. destruct (Nat.eqb_spec n 0); [lia|].
    f_equal. apply chunks_go_spec; auto. nia.
  Qed.

  Lemma reverse_chunks_go_spec fuel n m (l : list T) :
    0 < n -> length l = m * n -> m <= fuel ->
    reverse_chunks_go fuel n l = map_chunks n (@rev T) l.
  Proof.
    revert m l; induction fuel as [|fuel IH]; intros m l Hn Hl Hf.
    - destruct m; [|lia]. destruct l; [|simpl in Hl; lia]. now rewrite map_chunks_nil.
    - destruct m as [|m]; simpl.
      + destruct l; [|simpl in Hl; lia]. destruct (Nat.leb_spec n (length (@nil T))); simpl in *; [lia|].
        now rewrite map_chunks_nil.
      + destruct (Nat.leb_spec n (length l)); [|nia].
        rewrite (IH m); [|auto|rewrite skipn_length; nia|lia].
        rewrite <- (firstn_skipn n l) at 3.
        rewrite map_chunks_cons; auto. rewrite firstn_length. lia.
  Qed.

  Lemma reverse_chunks_ok n m (l : list T) :
    0 < n -> length l = m * n -> reverse_chunks n l = Ok (map_chunks n (@rev T) l).
  Proof.
    intros. unfold reverse_chunks. destruct (Nat.eqb_spec n 0); [lia|].
    f_equal. apply (reverse_chunks_go_spec _ n m); auto. nia.
  Qed.
End Chunks.

Section Loops.
  Context {A S : Type}.

  (** [for_each] over a list, with an invariant indexed by the number of iterations done *)
  Lemma for_each_inv (Inv : nat -> S -> Prop) (l : list A) (body : A -> S -> res S) (s : S) a0 :
    Inv 0 s ->
    (forall i s, i < length l -> Inv i s -> exists s', body (nth i l a0) s = Ok s' /\ Inv (1 + i) s') ->
    exists s', for_each l body s = Ok s' /\ Inv (length l) s'.
  Proof.
    revert Inv s; induction l as [|a l IH]; intros Inv s H0 Hs; simpl.
    - eauto.
    - destruct (Hs 0 s) as (s1 & E1 & H1); simpl; [lia|auto|].
      simpl in E1. rewrite E1. simpl.
      apply (IH (fun i => Inv (1 + i))); auto.
      intros i s' Hi Hi'. destruct (Hs (1 + i) s') as (s2 & E2 & H2); simpl; [lia|auto|].
      eauto.
  Qed.

  Lemma for_each_app (l1 l2 : list A) (body : A -> S -> res S) s :
    for_each (l1 ++ l2) body s = bind (for_each l1 body s) (for_each l2 body).
  Proof.
    revert s; induction l1; intros; simpl; auto. destruct (body a s); simpl; auto.
  Qed.

  Lemma for_each_ext (l : list A) (b1 b2 : A -> S -> res S) s :
    (forall a s, In a l -> b1 a s = b2 a s) -> for_each l b1 s = for_each l b2 s.
  Proof.
    revert s; induction l; intros; simpl; auto. rewrite H by (now left).
    destruct (b2 a s); simpl; auto. apply IHl. intros. apply H. now right.
  Qed.
End Loops.

Lemma for_range_inv {S} (Inv : nat -> S -> Prop) lo hi (body : nat -> S -> res S) (s : S) :
  lo <= hi ->
  Inv lo s ->
  (forall i s, lo <= i < hi -> Inv i s -> exists s', body i s = Ok s' /\ Inv (1 + i) s') ->
  exists s', for_range lo hi body s = Ok s' /\ Inv hi s'.
Proof.
  intros Hle H0 Hs. unfold for_range.
  destruct (for_each_inv (fun i => Inv (lo + i)) (seq lo (hi - lo)) body s 0) as (s' & E & H).
  - now rewrite Nat.add_0_r.
  - intros i s1 Hi H1. rewrite seq_length in Hi. rewrite seq_nth by auto.
    destruct (Hs (lo + i) s1) as (s2 & E2 & H2); [lia|auto|].
    exists s2. split; auto. now replace (lo + (1 + i)) with (1 + (lo + i)) by lia.
  - exists s'. split; auto. rewrite seq_length in H. now replace (lo + (hi - lo)) with hi in H by lia.
Qed.
