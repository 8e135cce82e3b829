(** * Proofs of C46-C50 *)
From Verif Require Export ParamIeee.
From Verif Require Import Lemmas RealDHT FloatTree PropsFloatProof.
From Flocq Require Import Core IEEE754.BinarySingleNaN.
From Coq Require Import Reals Lra Lia Bool.

(** ** every tree *)
Lemma parametric_proof A B (NA : Num A) (NB : Num B) (RC RD : A -> B -> Prop) : coefs RC -> additive RC RD ->
  forall m t d d' f f', @build A NA m t = Ok d -> @build B NB m t = Ok d' -> transforms d f -> transforms d' f' ->
  forall x x', length x = dht_len d -> Forall2 RD x x' -> Forall2 RD (f x) (f' x').
Proof.
  intros HC HD m t d d' f f' E E' T T' x x' L H. pose proof (build_alike RC RD HC HD m t) as K. rewrite E, E' in K.
  destruct K as [_ K]. exact (alike_transforms RD d d' f f' K (rd_zero _ _ HD) T T' x x' H L).
Qed.

Lemma eq_coefs T (N : Num T) : @coefs T T N N eq.
Proof. constructor; intros; subst; reflexivity. Qed.
Lemma transforms_unique m t T (N : Num T) d f f' : @build T N m t = Ok d -> transforms d f -> transforms d f' ->
  forall x, length x = dht_len d -> f x = f' x.
Proof.
  intros E F F' x L.
  assert (H : Forall2 eq (f x) (f' x)).
  { apply (parametric_proof T T N N eq eq (eq_coefs T N) (coefs_additive eq (eq_coefs T N)) m t d d f f' E E F F' x x L).
    clear. induction x; auto. }
  clear - H. induction H; congruence.
Qed.

Lemma spoils_proof T (N : Num T) (bad : T -> Prop) : absorbing bad -> forall m t d f, in_range t -> @build T N m t = Ok d -> transforms d f ->
  forall x j, length x = dht_len d -> j < dht_len d -> bad (nth j x nzero) ->
  bad (nth 0 (f x) nzero) /\
  (forall k, k < dht_len d -> cas (ang (dht_len d) (j * k)) <> 0%R -> bad (nth k (f x) nzero)) /\
  (~ Nat.divide 8 (dht_len d) -> forall k, k < dht_len d -> bad (nth k (f x) nzero)).
Proof.
  intros H m t d f I E F x j L Hj B.
  destruct (tree_spreads bad H m t d I E) as (f' & F' & S).
  rewrite (transforms_unique m t T N d f f' E F F' x L).
  repeat split.
  - apply (S x j 0); auto; [lia|]. rewrite Nat.mul_0_r. apply cas_ang_0.
  - intros k Hk C. now apply (S x j k).
  - intros D k Hk. apply (S x j k); auto. intros C. apply D. eapply cas_zero; [|exact C]. lia.
Qed.

Lemma C47_f32_proof L m t d f : in_range t -> @build f32 (Num_f32 L) m t = Ok d -> transforms d f ->
  forall x j, length x = dht_len d -> j < dht_len d ->
  (is_finite (nth j x (B754_zero false)) = false ->
     is_finite (nth 0 (f x) (B754_zero false)) = false /\
     (~ Nat.divide 8 (dht_len d) -> forall k, k < dht_len d -> is_finite (nth k (f x) (B754_zero false)) = false)) /\
  (is_nan (nth j x (B754_zero false)) = true ->
     is_nan (nth 0 (f x) (B754_zero false)) = true /\
     (~ Nat.divide 8 (dht_len d) -> forall k, k < dht_len d -> is_nan (nth k (f x) (B754_zero false)) = true)).
Proof.
  intros I E F x j Lx Hj. split; intros B.
  - destruct (spoils_proof f32 (Num_f32 L) not_finite (absorbing_f32_fin L) m t d f I E F x j Lx Hj B) as (H1 & _ & H2). auto.
  - destruct (spoils_proof f32 (Num_f32 L) nan (absorbing_f32_nan L) m t d f I E F x j Lx Hj B) as (H1 & _ & H2). auto.
Qed.
Lemma C47_f64_proof L m t d f : in_range t -> @build f64 (Num_f64 L) m t = Ok d -> transforms d f ->
  forall x j, length x = dht_len d -> j < dht_len d ->
  (is_finite (nth j x (B754_zero false)) = false ->
     is_finite (nth 0 (f x) (B754_zero false)) = false /\
     (~ Nat.divide 8 (dht_len d) -> forall k, k < dht_len d -> is_finite (nth k (f x) (B754_zero false)) = false)) /\
  (is_nan (nth j x (B754_zero false)) = true ->
     is_nan (nth 0 (f x) (B754_zero false)) = true /\
     (~ Nat.divide 8 (dht_len d) -> forall k, k < dht_len d -> is_nan (nth k (f x) (B754_zero false)) = true)).
Proof.
  intros I E F x j Lx Hj. split; intros B.
  - destruct (spoils_proof f64 (Num_f64 L) not_finite (absorbing_f64_fin L) m t d f I E F x j Lx Hj B) as (H1 & _ & H2). auto.
  - destruct (spoils_proof f64 (Num_f64 L) nan (absorbing_f64_nan L) m t d f I E F x j Lx Hj B) as (H1 & _ & H2). auto.
Qed.

(** ** the sign of a zero, and negation *)
Lemma same_f32 L : @additive f32 f32 (Num_f32 L) (Num_f32 L) eq same_number.
Proof.
  constructor; cbn; intros; subst.
  - now left.
  - now apply (same_plus 24 128).
  - now apply (same_minus 24 128).
  - now apply (same_opp 24 128).
  - now apply (same_mult 24 128).
  - now apply (same_mult_l 24 128).
Qed.
Lemma same_f64 L : @additive f64 f64 (Num_f64 L) (Num_f64 L) eq same_number.
Proof.
  constructor; cbn; intros; subst.
  - now left.
  - now apply (same_plus 53 1024).
  - now apply (same_minus 53 1024).
  - now apply (same_opp 53 1024).
  - now apply (same_mult 53 1024).
  - now apply (same_mult_l 53 1024).
Qed.
Lemma mirror_f32 L : @additive f32 f32 (Num_f32 L) (Num_f32 L) eq mirror.
Proof.
  constructor; cbn; intros; subst.
  - right. cbn. eauto.
  - now apply (mirror_plus 24 128).
  - now apply (mirror_minus 24 128).
  - now apply (mirror_opp 24 128).
  - now apply (mirror_mult_r 24 128).
  - now apply (mirror_mult_l 24 128).
Qed.
Lemma mirror_f64 L : @additive f64 f64 (Num_f64 L) (Num_f64 L) eq mirror.
Proof.
  constructor; cbn; intros; subst.
  - right. cbn. eauto.
  - now apply (mirror_plus 53 1024).
  - now apply (mirror_minus 53 1024).
  - now apply (mirror_opp 53 1024).
  - now apply (mirror_mult_r 53 1024).
  - now apply (mirror_mult_l 53 1024).
Qed.
Lemma mirror_map {p e} (x y : list (binary_float p e)) : Forall2 mirror x y <-> Forall2 same_number (map Bopp x) y.
Proof.
  revert y. induction x as [|a x IH]; intros y; simpl.
  - split; intros H; inversion H; constructor.
  - split; intros H; inversion H; subst; constructor; auto; now apply IH.
Qed.
Lemma mirror_self {p e} (x : list (binary_float p e)) : Forall2 mirror x (map Bopp x).
Proof. induction x; simpl; constructor; auto. now left. Qed.
Lemma C48_f32_proof L m t d f : @build f32 (Num_f32 L) m t = Ok d -> transforms d f ->
  forall x, length x = dht_len d -> Forall2 same_number (map Bopp (f x)) (f (map Bopp x)).
Proof.
  intros E F x Lx. apply mirror_map.
  eapply (parametric_proof f32 f32 (Num_f32 L) (Num_f32 L) eq mirror); eauto using eq_coefs, mirror_f32, mirror_self.
Qed.
Lemma C48_f64_proof L m t d f : @build f64 (Num_f64 L) m t = Ok d -> transforms d f ->
  forall x, length x = dht_len d -> Forall2 same_number (map Bopp (f x)) (f (map Bopp x)).
Proof.
  intros E F x Lx. apply mirror_map.
  eapply (parametric_proof f64 f64 (Num_f64 L) (Num_f64 L) eq mirror); eauto using eq_coefs, mirror_f64, mirror_self.
Qed.
Lemma C49_f32_proof L m t d f : @build f32 (Num_f32 L) m t = Ok d -> transforms d f ->
  forall x y, length x = dht_len d -> Forall2 same_number x y -> Forall2 same_number (f x) (f y).
Proof. intros E F x y Lx. eapply (parametric_proof f32 f32 (Num_f32 L) (Num_f32 L) eq same_number); eauto using eq_coefs, same_f32. Qed.
Lemma C49_f64_proof L m t d f : @build f64 (Num_f64 L) m t = Ok d -> transforms d f ->
  forall x y, length x = dht_len d -> Forall2 same_number x y -> Forall2 same_number (f x) (f y).
Proof. intros E F x y Lx. eapply (parametric_proof f64 f64 (Num_f64 L) (Num_f64 L) eq same_number); eauto using eq_coefs, same_f64. Qed.

(** ** cases *)
Definition Num_taint : Num bool := {|
  nzero := false; nadd := orb; nsub := orb; nmul := orb; nopp := fun b => b;
  ncos := fun _ _ _ => false; nsin := fun _ _ _ => false; nhalf := false; nroot_half := false; nrecip := fun _ => false |}.
Lemma C47_needed_proof : @absorbing bool Num_taint (fun b => b = true) /\
  dht_process_oop (@butterfly8 bool Num_taint) [false; false; false; true; false; false; false; false] (repeat false 8) [] =
  Ok ([false; false; false; true; false; false; false; false], [true; false; true; true; true; false; true; true], []).
Proof.
  split; [|vm_compute; reflexivity].
  constructor; simpl; intros; auto; apply orb_true_iff; auto.
Qed.
Definition odd_tree := Three (Rader (Two (Naive 6))).
Lemma same_len A B (NA : Num A) (NB : Num B) m t n :
  match @build A NA m t with Ok d => dht_len d =? n | _ => false end = true ->
  exists d, @build B NB m t = Ok d /\ dht_len d = n.
Proof.
  pose proof (build_indifferent A B NA NB m t) as H. intros K.
  destruct (@build A NA m t) as [e| | |]; try discriminate. apply Nat.eqb_eq in K.
  destruct (@build B NB m t) as [d| | |]; try contradiction. exists d. split; auto.
  destruct H as ((H & _) & _). congruence.
Qed.
Lemma tree_transforms T (N : Num T) m t d : in_range t -> @build T N m t = Ok d -> exists f, transforms d f.
Proof.
  intros I E. destruct (assembled_ok m ranged ltac:(intros ? []) ltac:(auto) d (build_assembled m t d I E)) as [f F].
  exists f. now apply transforms_ok.
Qed.
Lemma odd_range : in_range odd_tree.
Proof. simpl. repeat split; discriminate. Qed.
Lemma odd_build T (N : Num T) m : exists d f, @build T N m odd_tree = Ok d /\ transforms d f /\ dht_len d = 39.
Proof.
  destruct (same_len bool T Num_taint N m odd_tree 39) as (d & E & K); [destruct m; vm_compute; reflexivity|].
  destruct (tree_transforms T N m odd_tree d odd_range E) as [f F].
  exists d, f. split; [exact E|]. split; [exact F|exact K].
Qed.
Lemma C47_case_proof L m : in_range odd_tree /\ ~ Nat.divide 8 39 /\
  exists d f, @build f32 (Num_f32 L) m odd_tree = Ok d /\ transforms d f /\ dht_len d = 39.
Proof. split; [exact odd_range|]. split; [intros [z H]; lia|]. apply odd_build. Qed.
Lemma C50_case_proof L m : @coefs f32 f32 (Num_f32 L) (Num_f32 L) eq /\ @additive f32 f32 (Num_f32 L) (Num_f32 L) eq mirror /\
  exists d f, @build f32 (Num_f32 L) m odd_tree = Ok d /\ transforms d f /\ dht_len d = 39.
Proof. split; [apply eq_coefs|]. split; [apply mirror_f32|]. apply odd_build. Qed.
