(** * Debug builds and release builds agree: proofs *)
From Verif Require Export ProfileSpec.
From Verif Require Import Euclid.
From Coq Require Import NArith ZArith Lia.

(** [usize] of the first is at most as wide *)
Definition narrow (W W' : width) : Prop := (@span W <= @span W')%N.

Lemma agree_refl {A} (a : res A) : agree a a.
Proof. right. reflexivity. Qed.
Lemma agree_panic {A} (a : res A) : agree Panic a.
Proof. left. reflexivity. Qed.
Lemma agree_bind {A B} (a b : res A) (f g : A -> res B) : agree a b -> (forall x, agree (f x) (g x)) -> agree (bind a f) (bind b g).
Proof. intros [-> | ->] H; [left; reflexivity|]. destruct b; cbn; [apply H|right; reflexivity..]. Qed.
Lemma agree_for_each {A S} l (f g : A -> S -> res S) : (forall x s, agree (f x s) (g x s)) -> forall s, agree (for_each l f s) (for_each l g s).
Proof. intros H. induction l as [|a l I]; intros s; cbn; [apply agree_refl|]. apply agree_bind; [apply H|exact I]. Qed.
Lemma agree_for_range {S} lo hi (f g : nat -> S -> res S) : (forall x s, agree (f x s) (g x s)) -> forall s, agree (for_range lo hi f s) (for_range lo hi g s).
Proof. intros H s. apply agree_for_each. exact H. Qed.
Lemma agree_push_all {A B} (f g : A -> res B) l : (forall x, agree (f x) (g x)) -> agree (push_all f l) (push_all g l).
Proof.
  intros H. induction l as [|a l I]; cbn; [apply agree_refl|]. apply agree_bind; [apply H|]. intros v.
  apply agree_bind; [exact I|]. intros; apply agree_refl.
Qed.
Lemma agree_push_lists {A B} (f g : A -> res (list B)) l : (forall x, agree (f x) (g x)) -> agree (push_lists f l) (push_lists g l).
Proof. intros H. apply agree_bind; [apply agree_push_all, H|]. intros; apply agree_refl. Qed.
Lemma agree_steps {S R} n (f g : S -> res (S + R)) : (forall s, agree (f s) (g s)) -> forall s, agree (steps n f s) (steps n g s).
Proof.
  intros H. induction n as [|n I]; intros s; cbn; [apply H|]. apply agree_bind; [apply I|].
  intros [x | x]; [apply I|apply agree_refl].
Qed.
Lemma agree_while {S R} (f g : S -> res (S + R)) s : (forall s, agree (f s) (g s)) -> agree (while f s) (while g s).
Proof. intros H. apply agree_bind; [apply agree_steps, H|]. intros; apply agree_refl. Qed.
Lemma agree_on_tail {T} (l : list T) n f g : (forall x, agree (f x) (g x)) -> agree (on_tail l n f) (on_tail l n g).
Proof. intros H. apply agree_bind; [apply agree_refl|]. intros [a b]. apply agree_bind; [apply H|]. intros; apply agree_refl. Qed.
Lemma agree_u64 m' v : agree (u64 Debug v) (u64 m' v).
Proof. unfold u64. destruct (v <? two64)%N; [right|left]; reflexivity. Qed.
Lemma agree_i64 m' v : agree (i64 Debug v) (i64 m' v).
Proof. unfold i64. destruct (_ && _)%bool; [right|left]; reflexivity. Qed.
Lemma agree_usize m' {W W' : width} (HW : narrow W W') v : agree (usize (W := W) Debug v) (usize (W := W') m' v).
Proof.
  unfold usize, narrow in *. destruct (N.ltb_spec v (@span W)) as [L|L]; [right|left; reflexivity].
  destruct (N.ltb_spec v (@span W')); [reflexivity|lia].
Qed.
Lemma agree_wsub m' {W W' : width} a b : agree (wsub (W := W) Debug a b) (wsub (W := W') m' a b).
Proof. unfold wsub. destruct (b <=? a); [right|left]; reflexivity. Qed.

Lemma agree_alloc {W W' : width} (HW : narrow W W') b n : agree (alloc (W := W) b n) (alloc (W := W') b n).
Proof.
  unfold alloc, narrow in *. destruct (N.leb_spec (N.of_nat n * b) (@span W / 2 - 1)) as [L|L]; [right|left; reflexivity].
  pose proof (N.div_le_mono _ _ 2 ltac:(lia) HW).
  destruct (N.leb_spec (N.of_nat n * b) (@span W' / 2 - 1)); [reflexivity|lia].
Qed.

Create HintDb agree discriminated.
#[export] Hint Resolve agree_panic agree_u64 agree_usize agree_i64 agree_wsub agree_alloc : agree.
#[export] Hint Constants Opaque : agree.
#[export] Hint Variables Opaque : agree.

(** one syntactic step *)
Ltac ag1 :=
  first [ match goal with |- agree ?a ?b => constr_eq a b; exact (agree_refl a) end
        | solve [auto 2 with agree nocore]
        | match goal with
          | |- agree (bind _ _) (bind _ _) => apply agree_bind; [|intros ?]
          | |- agree (for_each _ _ _) (for_each _ _ _) => apply agree_for_each; intros ? ?
          | |- agree (for_range _ _ _ _) (for_range _ _ _ _) => apply agree_for_range; intros ? ?
          | |- agree (push_all _ _) (push_all _ _) => apply agree_push_all; intros ?
          | |- agree (push_lists _ _) (push_lists _ _) => apply agree_push_lists; intros ?
          | |- agree (while _ _) (while _ _) => apply agree_while; intros ?
          | |- agree (on_tail _ _ _) (on_tail _ _ _) => apply agree_on_tail; intros ?
          | |- agree (if ?b then _ else _) (if ?b then _ else _) => destruct b
          | |- agree (match ?x with _ => _ end) (match ?x with _ => _ end) => destruct x
          | |- agree ((match ?x with _ => _ end) _) ((match ?x with _ => _ end) _) => destruct x
          end ].
Ltac ag := cbv zeta; repeat (ag1; cbv zeta beta).

Lemma agree_uadd m' {W W' : width} (HW : narrow W W') a b : agree (uadd (W := W) Debug a b) (uadd (W := W') m' a b).
Proof. unfold uadd. ag. Qed.
Lemma agree_umul m' {W W' : width} (HW : narrow W W') a b : agree (umul (W := W) Debug a b) (umul (W := W') m' a b).
Proof. unfold umul. ag. Qed.
#[export] Hint Resolve agree_uadd agree_umul : agree.
Lemma agree_mul_add m' {W W' : width} (HW : narrow W W') a b c : agree (mul_add (W := W) Debug a b c) (mul_add (W := W') m' a b c).
Proof. unfold mul_add. ag. Qed.
Lemma agree_mul_mod m' a b n : agree (mul_mod Debug a b n) (mul_mod m' a b n).
Proof. unfold mul_mod. ag. Qed.
Lemma agree_index_step m' {W W' : width} (HW : narrow W W') a b n : agree (index_step (W := W) Debug a b n) (index_step (W := W') m' a b n).
Proof. unfold index_step. ag. Qed.
#[export] Hint Resolve agree_mul_add agree_mul_mod agree_index_step : agree.

(** ** math_utils.rs and the Euclidean algorithm *)
Lemma agree_modexp m' b e n : agree (modular_exponent Debug b e n) (modular_exponent m' b e n).
Proof. unfold modular_exponent. ag. Qed.
#[export] Hint Resolve agree_modexp : agree.
Lemma agree_trial m' s : agree (trial_step Debug s) (trial_step m' s).
Proof. unfold trial_step. ag. Qed.
#[export] Hint Resolve agree_trial : agree.
Lemma agree_factors m' n : agree (distinct_prime_factors Debug n) (distinct_prime_factors m' n).
Proof. unfold distinct_prime_factors. ag. Qed.
#[export] Hint Resolve agree_factors : agree.
Lemma agree_rejected m' r p es : agree (rejected Debug r p es) (rejected m' r p es).
Proof. induction es as [|e es I]; cbn [rejected]; ag. Qed.
#[export] Hint Resolve agree_rejected : agree.
Lemma agree_root m' p : agree (primitive_root Debug p) (primitive_root m' p).
Proof. unfold primitive_root. ag. Qed.
Lemma agree_euclid_step m' q a : agree (euclid_step Debug q a) (euclid_step m' q a).
Proof. unfold euclid_step. ag. Qed.
#[export] Hint Resolve agree_root agree_euclid_step : agree.
Lemma agree_euclid m' f : forall s t r, agree (euclid_go Debug f s t r) (euclid_go m' f s t r).
Proof. induction f as [|f I]; intros; cbn [euclid_go]; ag. Qed.
Lemma agree_gcd m' a b : agree (extended_gcd_run Debug a b) (extended_gcd_run m' a b).
Proof. apply agree_euclid. Qed.
#[export] Hint Resolve agree_gcd : agree.
Lemma agree_roots m' {W W' : width} (HW : narrow W W') n : (N.of_nat n < @span W)%N -> agree (raders_roots_run (W := W) Debug n) (raders_roots_run (W := W') m' n).
Proof.
  intros Hn. assert (E : W = W' \/ (W = W32 /\ W' = W64)) by (destruct W, W'; auto; exfalso; apply HW; reflexivity).
  destruct E as [<-|[-> ->]]; [unfold raders_roots_run; ag|].
  change (@span W32) with 4294967296%N in Hn.
  rewrite (raders_roots_word (W := W32)), (raders_roots_word (W := W64)) by (change (@span W64) with 18446744073709551616%N; lia || (change (@span W32) with 4294967296%N; lia)).
  unfold raders_roots. ag.
Qed.
#[export] Hint Resolve agree_roots : agree.

Section Profile.
  Context {T : Type} {NT : Num T}.

  Lemma agree_iter {S} (f g : list T -> S -> res (list T * S)) : (forall a b, agree (f a b) (g a b)) ->
    forall k n l s, agree (iter_chunks_go k n f l s) (iter_chunks_go k n g l s).
  Proof. intros H. induction k as [|k I]; intros; cbn [iter_chunks_go]; ag. Qed.
  Lemma agree_iter_zipped {S} (f g : list T -> list T -> S -> res (list T * list T * S)) : (forall a b c, agree (f a b c) (g a b c)) ->
    forall k n u l l' s, agree (iter_chunks_zipped_go k n f u l l' s) (iter_chunks_zipped_go k n g u l l' s).
  Proof. intros H. induction k as [|k I]; intros; cbn [iter_chunks_zipped_go]; ag. Qed.
  Lemma agree_boilerplate_oop n f g : (forall a b, agree (f a b) (g a b)) ->
    agree_dht (boilerplate_dht_oop n f) (@boilerplate_dht_oop T n g).
  Proof.
    intros H. split; try reflexivity; intros; cbn [boilerplate_dht_oop dht_process_with_scratch dht_process_oop]; unfold iter_chunks, iter_chunks_zipped.
    - ag. apply agree_iter. intros; ag.
    - ag; apply agree_iter_zipped; intros; ag.
  Qed.
  Lemma agree_boilerplate n s o f g p q : (forall a b, agree (f a b) (g a b)) -> (forall a b c, agree (p a b c) (q a b c)) ->
    agree_dht (boilerplate_dht n s o f p) (@boilerplate_dht T n s o g q).
  Proof.
    intros H H'. split; try reflexivity; intros; cbn [boilerplate_dht dht_process_with_scratch dht_process_oop]; unfold iter_chunks, iter_chunks_zipped.
    - ag. apply agree_iter. exact H.
    - ag; apply agree_iter_zipped; exact H'.
  Qed.
  Lemma agree_process (d r : Dht T) x : agree_dht d r -> agree (dht_process d x) (dht_process r x).
  Proof. intros H. unfold dht_process. rewrite (ag_inplace_scratch _ _ H). apply agree_bind; [apply (ag_inplace _ _ H)|]. intros; ag. Qed.
  Lemma agree_dht_refl (d : Dht T) : agree_dht d d.
  Proof. split; intros; try reflexivity; apply agree_refl. Qed.
  Lemma agree_inplace (d r : Dht T) x y : agree_dht d r -> agree (dht_process_with_scratch d x y) (dht_process_with_scratch r x y).
  Proof. intros H. apply (ag_inplace _ _ H). Qed.
  Lemma agree_oop (d r : Dht T) x y z : agree_dht d r -> agree (dht_process_oop d x y z) (dht_process_oop r x y z).
  Proof. intros H. apply (ag_oop _ _ H). Qed.
  (** constructors *)
  Lemma new_bind {A} (a b : res A) (f g : A -> res (Dht T)) : agree a b -> (forall x, agree_new (f x) (g x)) -> agree_new (bind a f) (bind b g).
  Proof. intros [-> | ->] H; [exact Logic.I|]. destruct b; cbn; [apply H|exact Logic.I..]. Qed.
  Lemma new_bind_eq {A} (a b : res A) (f g : A -> res (Dht T)) : agree a b -> (forall x, a = Ok x -> agree_new (f x) (g x)) -> agree_new (bind a f) (bind b g).
  Proof. intros [-> | ->] H; [exact Logic.I|]. destruct b; cbn; [now apply H|exact Logic.I..]. Qed.
  Lemma new_bind_dht (a b : res (Dht T)) (f g : Dht T -> res (Dht T)) : agree_new a b -> (forall x y, agree_dht x y -> agree_new (f x) (g y)) ->
    agree_new (bind a f) (bind b g).
  Proof. intros H K. destruct a, b; try contradiction; cbn; try exact Logic.I. apply K, H. Qed.
End Profile.
#[export] Hint Resolve agree_process agree_inplace agree_oop : agree.
