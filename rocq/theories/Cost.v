(** * Operation counts: general facts and the pattern checker *)
From Verif Require Export CostSpec Straight.
From Coq Require Import Bool Lia Arith.
#[export] Existing Instance Num_expr.

(** ** composing computations *)
Lemma operand_mono x L L' e : incl L L' -> operand x L e -> operand x L' e.
Proof. intros I [F|[X|M]]; [now left|right; now left|right; right; auto]. Qed.
Lemma operation_mono x L L' e : incl L L' -> operation x L e -> operation x L' e.
Proof. intros I. destruct e; simpl; auto; intros; repeat split; try (eapply operand_mono; [exact I|tauto]). Qed.
Lemma computable_free x ys : (forall y, In y ys -> fixed y \/ In y x) -> computable x 0 ys.
Proof. intros H. exists []. split; [simpl; lia|]. split; [constructor|]. apply Forall_forall. intros y Y. destruct (H y Y); [now left|right; now left]. Qed.
Lemma computable_le x c c' ys : c <= c' -> computable x c ys -> computable x c' ys.
Proof. intros H (L & A & B). exists L. split; [lia|exact B]. Qed.
Lemma computable_sub x c ys zs : (forall z, In z zs -> fixed z \/ In z ys) -> computable x c ys -> computable x c zs.
Proof.
  intros H (L & A & B & C). exists L. split; [exact A|]. split; [exact B|]. rewrite Forall_forall in *. intros z Z.
  destruct (H z Z) as [F|Y]; [now left|now apply C].
Qed.
Lemma computable_app x c c' ys zs : computable x c ys -> computable x c' zs -> computable x (c + c') (ys ++ zs).
Proof.
  intros (L & A & B & C) (L' & A' & B' & C'). exists (L ++ L'). rewrite app_length. split; [lia|].
  assert (I : incl L (L ++ L')) by (intros e; rewrite in_app_iff; auto).
  assert (I' : incl L' (L ++ L')) by (intros e; rewrite in_app_iff; auto).
  rewrite !Forall_app. rewrite !Forall_forall in *. repeat split; intros e E; eauto using operand_mono, operation_mono.
Qed.
Lemma computable_trans x c c' ys zs : computable x c ys -> computable ys c' zs -> computable x (c + c') zs.
Proof.
  intros (L & A & B & C) (L' & A' & B' & C'). exists (L ++ L'). rewrite app_length. split; [lia|].
  assert (I : incl L (L ++ L')) by (intros e; rewrite in_app_iff; auto).
  assert (O : forall e, operand ys L' e -> operand x (L ++ L') e).
  { intros e [F|[Y|M]]; [now left| |right; right; rewrite in_app_iff; auto].
    rewrite Forall_forall in C. eapply operand_mono; eauto. }
  rewrite !Forall_app. rewrite !Forall_forall in *. repeat split; intros e E.
  - eauto using operation_mono.
  - specialize (B' e E). destruct e; simpl in *; try contradiction; intuition.
  - auto.
Qed.
Lemma computable_from x x' c ys : (forall e, In e x -> fixed e \/ In e x') -> computable x c ys -> computable x' c ys.
Proof. intros H K. change c with (0 + c). eapply computable_trans; [|exact K]. now apply computable_free. Qed.
Lemma computable_flat {A} x (l : list A) Y c : (forall a, In a l -> computable x (c a) (Y a)) ->
  computable x (list_sum (map c l)) (flat_map Y l).
Proof.
  induction l as [|a l IH]; intros H; simpl.
  - apply computable_free. intros y [].
  - apply computable_app; [apply H; now left|apply IH; intros; apply H; now right].
Qed.
Lemma list_sum_const {A} (l : list A) c : list_sum (map (fun _ => c) l) = length l * c.
Proof. induction l as [|a l IH]; cbn [map list_sum fold_right length Nat.mul]; [reflexivity|]. unfold list_sum in *. cbn [fold_right]. now rewrite IH. Qed.
Lemma computable_flat_const {A} x (l : list A) Y c : (forall a, In a l -> computable x c (Y a)) ->
  computable x (length l * c) (flat_map Y l).
Proof. intros H. rewrite <- (list_sum_const l). now apply (computable_flat x l Y (fun _ => c)). Qed.

Lemma deep_mono x n n' e : n <= n' -> deep x n e -> deep x n' e.
Proof.
  intros H D. revert n' H. induction D; intros n' H'; [now apply deep_free|..]; (destruct n' as [|n']; [lia|]).
  - apply deep_plus; [apply IHD1; lia|apply IHD2; lia].
  - apply deep_minus; [apply IHD1; lia|apply IHD2; lia].
  - apply deep_times; [apply IHD1; lia|apply IHD2; lia].
  - apply deep_neg. apply IHD. lia.
Qed.
Lemma deep_trans x ys a b e : Forall (deep x a) ys -> deep ys b e -> deep x (a + b) e.
Proof.
  intros F D. rewrite Forall_forall in F. induction D.
  - destruct H as [H|H]; [now apply deep_free; left|]. apply (deep_mono x a); [lia|auto].
  - rewrite Nat.add_succ_r. now apply deep_plus.
  - rewrite Nat.add_succ_r. now apply deep_minus.
  - rewrite Nat.add_succ_r. now apply deep_times.
  - rewrite Nat.add_succ_r. now apply deep_neg.
Qed.
Lemma deep_from x x' n e : (forall y, In y x -> fixed y \/ In y x') -> deep x n e -> deep x' n e.
Proof. intros H D. change n with (0 + n). eapply deep_trans; [|exact D]. apply Forall_forall. intros y Y. now apply deep_free, H. Qed.

Lemma nth_known x i : fixed (nth i x Zero) \/ In (nth i x Zero) x.
Proof. destruct (lt_dec i (length x)); [right; now apply nth_In|left; rewrite nth_overflow by lia; exact Logic.I]. Qed.

(** ** patterns: variables below [k] are data, the others are constants *)
Definition eqb_nat3 (s s' : bool) (i i' n n' : nat) : bool := Bool.eqb s s' && (i =? i') && (n =? n').
Fixpoint same (a b : expr) : bool :=
  match a, b with
  | Var i, Var j => i =? j
  | Zero, Zero | Half, Half | Root_half, Root_half => true
  | Cos s i n, Cos s' i' n' | Sin s i n, Sin s' i' n' => eqb_nat3 s s' i i' n n'
  | Recip n, Recip n' => n =? n'
  | Plus a b, Plus a' b' | Minus a b, Minus a' b' | Times a b, Times a' b' => same a a' && same b b'
  | Neg a, Neg a' => same a a'
  | _, _ => false
  end.
Lemma same_eq a b : same a b = true -> a = b.
Proof.
  revert b. induction a; intros b; destruct b; simpl; try discriminate; unfold eqb_nat3; rewrite ?andb_true_iff, ?Nat.eqb_eq; intros K.
  all: try (destruct K as [[K1 K2] K3]; apply eqb_prop in K1); try (destruct K as [K1 K2]); f_equal; auto.
Qed.
Definition mem (e : expr) (L : list expr) : bool := existsb (same e) L.
Lemma mem_in e L : mem e L = true -> In e L.
Proof. unfold mem. rewrite existsb_exists. intros (y & Y & S). apply same_eq in S. now subst. Qed.
Fixpoint isfix (k : nat) (e : expr) : bool :=
  match e with
  | Var j => k <=? j
  | Plus a b | Minus a b | Times a b => isfix k a && isfix k b
  | Neg a => isfix k a
  | _ => true
  end.
Fixpoint nodes (k : nat) (e : expr) (acc : list expr) : list expr :=
  if isfix k e then acc else if mem e acc then acc else
  match e with
  | Plus a b | Minus a b | Times a b => e :: nodes k b (nodes k a acc)
  | Neg a => e :: nodes k a acc
  | _ => acc
  end.
Definition all_nodes (k : nat) (es : list expr) : list expr := fold_left (fun acc e => nodes k e acc) es [].
Definition operandb (k : nat) (L : list expr) (e : expr) : bool := isfix k e || match e with Var _ => true | _ => mem e L end.
Definition operationb (k : nat) (L : list expr) (e : expr) : bool :=
  match e with
  | Plus a b | Minus a b | Times a b => operandb k L a && operandb k L b
  | Neg a => operandb k L a
  | _ => false
  end.
Fixpoint depthb (k : nat) (e : expr) : nat :=
  if isfix k e then 0 else
  match e with
  | Plus a b | Minus a b | Times a b => S (Nat.max (depthb k a) (depthb k b))
  | Neg a => S (depthb k a)
  | _ => 0
  end.
Definition pattern (k c n : nat) (es : list expr) : bool :=
  let L := all_nodes k es in
  (length L <=? c) && forallb (operationb k L) L && forallb (operandb k L) es && forallb (fun e => depthb k e <=? n) es.

Section Pattern.
  Variables (k : nat) (x : list expr).
  Hypothesis small : k <= length x.
  Hypothesis rest : forall j, k <= j -> fixed (nth j x Zero).
  Lemma isfix_fixed e : isfix k e = true -> fixed (eval x e).
  Proof. induction e; simpl; auto; rewrite ?andb_true_iff, ?Nat.leb_le; intuition. Qed.
  Lemma var_data j : j < k -> In (nth j x Zero) (firstn k x).
  Proof.
    intros J. rewrite <- (firstn_skipn k x) at 1. rewrite app_nth1 by (rewrite firstn_length; lia).
    apply nth_In. rewrite firstn_length. lia.
  Qed.
  Lemma operandb_ok L e : operandb k L e = true -> operand (firstn k x) (map (eval x) L) (eval x e).
  Proof.
    unfold operandb. destruct (isfix k e) eqn:F; [intros _; left; now apply isfix_fixed|]. simpl.
    destruct e; simpl; intros K; try (apply mem_in in K; right; right; now apply (in_map (eval x)) in K).
    simpl in F. apply Nat.leb_gt in F. right; left. now apply var_data.
  Qed.
  Lemma operationb_ok L e : operationb k L e = true -> operation (firstn k x) (map (eval x) L) (eval x e).
  Proof.
    destruct e; simpl; try discriminate; rewrite ?andb_true_iff; intros; try (split; apply operandb_ok; tauto). now apply operandb_ok.
  Qed.
  Lemma depthb_ok e : deep (firstn k x) (depthb k e) (eval x e).
  Proof.
    induction e; cbn [depthb isfix]; try (apply deep_free; left; exact Logic.I).
    - cbn [eval]. destruct (k <=? j) eqn:E; apply deep_free.
      + left. apply rest. now apply Nat.leb_le.
      + right. apply var_data. now apply Nat.leb_gt.
    - destruct (isfix k e1 && isfix k e2) eqn:E; [apply deep_free; left; now apply (isfix_fixed (Plus e1 e2))|].
      apply deep_plus; [apply (deep_mono _ (depthb k e1)); auto; lia|apply (deep_mono _ (depthb k e2)); auto; lia].
    - destruct (isfix k e1 && isfix k e2) eqn:E; [apply deep_free; left; now apply (isfix_fixed (Minus e1 e2))|].
      apply deep_minus; [apply (deep_mono _ (depthb k e1)); auto; lia|apply (deep_mono _ (depthb k e2)); auto; lia].
    - destruct (isfix k e1 && isfix k e2) eqn:E; [apply deep_free; left; now apply (isfix_fixed (Times e1 e2))|].
      apply deep_times; [apply (deep_mono _ (depthb k e1)); auto; lia|apply (deep_mono _ (depthb k e2)); auto; lia].
    - destruct (isfix k e) eqn:E; [apply deep_free; left; now apply (isfix_fixed (Neg e))|]. now apply deep_neg.
  Qed.
  Lemma pattern_ok c n es : pattern k c n es = true ->
    computable (firstn k x) c (map (eval x) es) /\ Forall (deep (firstn k x) n) (map (eval x) es).
  Proof.
    unfold pattern. set (L := all_nodes k es). rewrite !andb_true_iff, !forallb_forall, Nat.leb_le. intros [[[H1 H2] H3] H4]. split.
    - exists (map (eval x) L). rewrite map_length. split; [exact H1|]. split; apply Forall_forall; intros e E;
        apply in_map_iff in E as (y & <- & Y); [now apply operationb_ok, H2|now apply operandb_ok, H3].
    - apply Forall_forall. intros e E. apply in_map_iff in E as (y & <- & Y).
      apply (deep_mono _ (depthb k y)); [apply Nat.leb_le; auto|apply depthb_ok].
  Qed.
End Pattern.
(** without constants beside the data *)
Lemma pattern_all x c n es : pattern (length x) c n es = true ->
  computable x c (map (eval x) es) /\ Forall (deep x n) (map (eval x) es).
Proof.
  intros P. pose proof (pattern_ok (length x) x (le_n _)) as H. rewrite firstn_all in H. apply H; auto.
  intros j J. rewrite nth_overflow by auto. exact Logic.I.
Qed.
