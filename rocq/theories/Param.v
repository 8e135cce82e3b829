(** * Two runs of the library side by side

    [RC] relates the constants and [RD] the data of two number types (or of one type twice).  When the
    operations respect the two relations, so does every function of the model: the two runs take the same
    branches, end in the same way and leave related results. *)
From Verif Require Export Trait ParamSpec.

(** ** combinators *)
Definition pr {A B C D} (P : A -> B -> Prop) (Q : C -> D -> Prop) (p : A * C) (q : B * D) : Prop :=
  P (fst p) (fst q) /\ Q (snd p) (snd q).
Definition cr {A B} (P : A -> B -> Prop) (c : cplx A) (c' : cplx B) : Prop :=
  P (re c) (re c') /\ P (im c) (im c').

Section Rules.
  Context {A B C D : Type}.
  Lemma rr_bind (Q : A -> B -> Prop) (P : C -> D -> Prop) r r' k k' :
    rr Q r r' -> (forall a b, Q a b -> rr P (k a) (k' b)) -> rr P (bind r k) (bind r' k').
  Proof. destruct r, r'; simpl; auto; contradiction. Qed.
  Lemma rr_weaken (P Q : A -> B -> Prop) r r' : rr P r r' -> (forall a b, P a b -> Q a b) -> rr Q r r'.
  Proof. destruct r, r'; simpl; auto. Qed.
End Rules.
Lemma rr_eq {A} (r : res A) : rr eq r r.
Proof. now destruct r. Qed.
Lemma rr_rassert b b' : b = b' -> rr eq (rassert b) (rassert b').
Proof. intros ->. apply rr_eq. Qed.
Lemma rr_usub a b a' b' : a = a' -> b = b' -> rr eq (usub a b) (usub a' b').
Proof. intros -> ->. apply rr_eq. Qed.

Section Lists.
  Context {A B : Type}.
  Variable R : A -> B -> Prop.
  Notation L := (Forall2 R).
  Lemma L_len l l' : L l l' -> length l = length l'.
  Proof. induction 1; simpl; auto. Qed.
  Lemma L_app a a' b b' : L a a' -> L b b' -> L (a ++ b) (a' ++ b').
  Proof. intros. now apply Forall2_app. Qed.
  Lemma L_firstn n l l' : L l l' -> L (firstn n l) (firstn n l').
  Proof. intros H. revert n. induction H; intros [|n]; simpl; auto. Qed.
  Lemma L_skipn n l l' : L l l' -> L (skipn n l) (skipn n l').
  Proof. intros H. revert n. induction H; intros [|n]; simpl; auto. Qed.
  Lemma L_rev l l' : L l l' -> L (rev l) (rev l').
  Proof. induction 1; simpl; auto. apply Forall2_app; auto. Qed.
  Lemma L_repeat n a b : R a b -> L (repeat a n) (repeat b n).
  Proof. intros. induction n; simpl; auto. Qed.
  Lemma L_map {X} (f : X -> A) (g : X -> B) l : (forall x, R (f x) (g x)) -> L (map f l) (map g l).
  Proof. intros H. induction l; simpl; auto. Qed.
  Lemma L_flat_map {X} (f : X -> list A) (g : X -> list B) l : (forall x, L (f x) (g x)) -> L (flat_map f l) (flat_map g l).
  Proof. intros H. induction l; simpl; auto. apply Forall2_app; auto. Qed.
  Lemma L_upd l l' i v v' : L l l' -> R v v' -> L (upd l i v) (upd l' i v').
  Proof. intros H Hv. revert i. induction H; intros [|i]; simpl; auto. Qed.
  Lemma L_nth_error l l' i : L l l' -> match nth_error l i, nth_error l' i with Some a, Some b => R a b | None, None => True | _, _ => False end.
  Proof. intros H. revert i. induction H; intros [|i]; simpl; auto. apply IHForall2. Qed.
  Lemma L_nth l l' i d d' : L l l' -> R d d' -> R (nth i l d) (nth i l' d').
  Proof. intros H Hd. revert i. induction H; intros [|i]; simpl; auto. Qed.
  Lemma L_nth_in l l' i d d' : L l l' -> i < length l -> R (nth i l d) (nth i l' d').
  Proof. intros H. revert i. induction H; intros [|i]; simpl; auto; try lia. intros. apply IHForall2. lia. Qed.
  Lemma L_combine {X} (s : list X) l l' : L l l' -> Forall2 (pr eq R) (combine s l) (combine s l').
  Proof. intros H. revert s. induction H; intros [|z s]; simpl; auto. constructor; auto. now split. Qed.

  Lemma rr_idx l l' i i' : L l l' -> i = i' -> rr R (idx l i) (idx l' i').
  Proof. intros H <-. unfold idx. pose proof (L_nth_error _ _ i H). destruct (nth_error l i), (nth_error l' i); simpl; auto. Qed.
  Lemma rr_uidx l l' i i' : L l l' -> i = i' -> rr R (uidx l i) (uidx l' i').
  Proof. intros H <-. unfold uidx. pose proof (L_nth_error _ _ i H). destruct (nth_error l i), (nth_error l' i); simpl; auto. Qed.
  Lemma rr_set l l' i i' v v' : L l l' -> i = i' -> R v v' -> rr L (set l i v) (set l' i' v').
  Proof. intros H <- Hv. unfold set. rewrite (L_len _ _ H). destruct (i <? length l'); simpl; auto using L_upd. Qed.
  Lemma rr_uset l l' i i' v v' : L l l' -> i = i' -> R v v' -> rr L (uset l i v) (uset l' i' v').
  Proof. intros H <- Hv. unfold uset. rewrite (L_len _ _ H). destruct (i <? length l'); simpl; auto using L_upd. Qed.
  Lemma rr_split_at l l' m m' : L l l' -> m = m' -> rr (pr L L) (split_at l m) (split_at l' m').
  Proof. intros H <-. unfold split_at. rewrite (L_len _ _ H). destruct (m <=? length l'); simpl; auto. split; simpl; auto using L_firstn, L_skipn. Qed.
  Lemma rr_copy d d' s s' : L d d' -> L s s' -> rr L (copy_from_slice d s) (copy_from_slice d' s').
  Proof. intros H G. unfold copy_from_slice. rewrite (L_len _ _ H), (L_len _ _ G). destruct (_ =? _); simpl; auto. Qed.
  Lemma L_chunks_go f n l l' : L l l' -> Forall2 L (chunks_go f n l) (chunks_go f n l').
  Proof.
    revert l l'. induction f as [|f IH]; intros l l' H; simpl; auto. rewrite (L_len _ _ H).
    destruct (n <=? length l'); auto. constructor; auto using L_firstn, L_skipn.
  Qed.
  Lemma rr_chunks n n' l l' : L l l' -> n = n' -> rr (Forall2 L) (chunks_exact n l) (chunks_exact n' l').
  Proof. intros H <-. unfold chunks_exact. rewrite (L_len _ _ H). destruct (n =? 0); simpl; auto using L_chunks_go. Qed.
  Lemma L_reverse_go f n l l' : L l l' -> L (reverse_chunks_go f n l) (reverse_chunks_go f n l').
  Proof.
    revert l l'. induction f as [|f IH]; intros l l' H; simpl; auto. rewrite (L_len _ _ H).
    destruct (n <=? length l'); auto. apply L_app; auto using L_rev, L_firstn, L_skipn.
  Qed.
  Lemma rr_reverse n n' l l' : L l l' -> n = n' -> rr L (reverse_chunks n l) (reverse_chunks n' l').
  Proof. intros H <-. unfold reverse_chunks. rewrite (L_len _ _ H). destruct (n =? 0); simpl; auto using L_reverse_go. Qed.
End Lists.
Arguments L_len {A B R l l'}.

Section Loops.
  Context {A B S S' : Type}.
  Lemma rr_for_each (RA : A -> B -> Prop) (I : S -> S' -> Prop) l l' body body' s s' :
    Forall2 RA l l' -> I s s' -> (forall a a' s s', RA a a' -> I s s' -> rr I (body a s) (body' a' s')) ->
    rr I (for_each l body s) (for_each l' body' s').
  Proof.
    intros H Is Hb. revert s s' Is. induction H as [|a a' l l' Ha _ IH]; intros s s' Is; simpl; auto.
    eapply rr_bind; [apply Hb; eauto|]. auto.
  Qed.
  Lemma Forall2_eq {X} (l : list X) : Forall2 eq l l.
  Proof. induction l; auto. Qed.
End Loops.
Lemma rr_for_range {S S'} (I : S -> S' -> Prop) lo hi lo' hi' body body' s s' :
  lo = lo' -> hi = hi' -> I s s' -> (forall i s s', I s s' -> rr I (body i s) (body' i s')) ->
  rr I (for_range lo hi body s) (for_range lo' hi' body' s').
Proof. intros <- <- Is Hb. unfold for_range. apply (rr_for_each eq); auto using Forall2_eq. intros a ? ? ? <- ?. auto. Qed.

Section Iter.
  Context {A B S S' : Type}.
  Variables (R : A -> B -> Prop) (I : S -> S' -> Prop).
  Notation L := (Forall2 R).
  Lemma rr_iter_chunks_go n fn fn' : (forall c c' st st', L c c' -> I st st' -> rr (pr L I) (fn c st) (fn' c' st')) ->
    forall fuel b b' st st', L b b' -> I st st' ->
    rr (pr (pr L I) eq) (iter_chunks_go fuel n fn b st) (iter_chunks_go fuel n fn' b' st').
  Proof.
    intros Hf. induction fuel as [|fuel IH]; intros b b' st st' Hb Is; simpl; auto. rewrite (L_len Hb).
    destruct (n <=? length b'); [|simpl; now repeat split].
    eapply rr_bind; [apply rr_split_at; eauto|]. intros [h t] [h' t'] [Hh Ht]. simpl in Hh, Ht.
    eapply rr_bind; [apply Hf; eauto|]. intros [h1 s1] [h1' s1'] [H1 I1]. simpl in H1, I1.
    eapply rr_bind; [apply IH; eauto|]. intros [[r s2] o] [[r' s2'] o'] [[Hr I2] Ho]. simpl in *. repeat split; simpl; auto using L_app.
  Qed.
  Lemma rr_iter_chunks n n' fn fn' b b' st st' : n = n' -> L b b' -> I st st' ->
    (forall c c' st st', L c c' -> I st st' -> rr (pr L I) (fn c st) (fn' c' st')) ->
    rr (pr (pr L I) eq) (iter_chunks b n fn st) (iter_chunks b' n' fn' st').
  Proof. intros <- Hb Is Hf. unfold iter_chunks. rewrite (L_len Hb). now apply rr_iter_chunks_go. Qed.

  Definition zr := pr (pr (pr L L) I) (@eq bool).
  Lemma rr_iter_zipped_go n fn fn' :
    (forall c c' d d' st st', L c c' -> L d d' -> I st st' -> rr (pr (pr L L) I) (fn c d st) (fn' c' d' st')) ->
    forall fuel u b b' c c' st st', L b b' -> L c c' -> I st st' ->
    rr zr (iter_chunks_zipped_go fuel n fn u b c st) (iter_chunks_zipped_go fuel n fn' u b' c' st').
  Proof.
    intros Hf. induction fuel as [|fuel IH]; intros u b b' c c' st st' Hb Hc Is; simpl; auto. rewrite (L_len Hb), (L_len Hc).
    destruct ((n <=? length b') && (n <=? length c')); [|simpl; now repeat split].
    eapply rr_bind; [apply rr_split_at; eauto|]. intros [h t] [h' t'] [Hh Ht]. simpl in Hh, Ht.
    eapply rr_bind; [apply rr_split_at; eauto|]. intros [g w] [g' w'] [Hg Hw]. simpl in Hg, Hw.
    eapply rr_bind; [apply Hf; eauto|]. intros [[h1 g1] s1] [[h1' g1'] s1'] [[H1 G1] I1]. simpl in H1, G1, I1.
    eapply rr_bind; [apply IH; eauto|]. intros [[[r v] s2] o] [[[r' v'] s2'] o'] [[[Hr Hv] I2] Ho]. simpl in *. repeat split; simpl; auto using L_app.
  Qed.
  Lemma rr_iter_zipped n n' fn fn' b b' c c' st st' : n = n' -> L b b' -> L c c' -> I st st' ->
    (forall c c' d d' st st', L c c' -> L d d' -> I st st' -> rr (pr (pr L L) I) (fn c d st) (fn' c' d' st')) ->
    rr (pr (pr (pr L L) I) eq) (iter_chunks_zipped b c n fn st) (iter_chunks_zipped b' c' n' fn' st').
  Proof.
    intros <- Hb Hc Is Hf. unfold iter_chunks_zipped. rewrite (L_len Hb), (L_len Hc).
    destruct (length c' <? length b').
    - eapply rr_bind; [apply rr_split_at; eauto|]. intros [h t] [h' t'] [Hh Ht]. simpl in Hh, Ht. rewrite (L_len Hh).
      eapply rr_bind; [apply rr_iter_zipped_go; eauto|]. intros [[[r v] s2] o] [[[r' v'] s2'] o'] [[[Hr Hv] I2] Ho]. simpl in *.
      repeat split; simpl; auto using L_app.
    - now apply rr_iter_zipped_go.
  Qed.
End Iter.
