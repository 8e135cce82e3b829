(** * Proofs for C74 *)
From Verif Require Import Borrow.
From Coq Require Import Lia.

Lemma bind_ext {A B} (x : res A) (f g : A -> res B) : (forall a, f a = g a) -> bind x f = bind x g.
Proof. intros E. destruct x; simpl; auto. Qed.
Lemma bind_same {A} (x : res A) : bind x (fun a => Ok a) = x.
Proof. now destruct x. Qed.
Lemma bind_bind {A B C} (x : res A) (f : A -> res B) (g : B -> res C) :
  bind (bind x f) g = bind x (fun a => bind (f a) g).
Proof. now destruct x. Qed.

Ltac together := lazymatch goal with
  | |- Ok ?x = Ok ?x => reflexivity
  | |- bind _ _ = bind (bind _ _) _ => rewrite bind_bind; together
  | |- bind ?x _ = bind ?x _ => apply bind_ext; intro; together
  | |- bind ?x _ = ?x => apply bind_same
  | |- _ => progress cbn; together
  end.

Section Faithful.
  Context {T : Type} {NT : Num T}.
  Lemma bf2_run (m : raw T) : run bf2_prog m = bf2_contig m.
  Proof. unfold bf2_contig. together. Qed.
  Lemma bf3_run tw (m : raw T) : run (bf3_prog tw) m = bf3_contig tw m.
  Proof. unfold bf3_contig. together. Qed.
  Lemma bf4_run (m : raw T) : run bf4_prog m = bf4_contig m.
  Proof. unfold bf4_contig. together. Qed.
  Lemma bf5_run tw (m : raw T) : run (bf5_prog tw) m = bf5_contig tw m.
  Proof. destruct tw. unfold bf5_contig. together. Qed.
  Lemma bf6_run tw (m : raw T) : run (bf6_prog tw) m = bf6_contig tw m.
  Proof. unfold bf6_contig. together. Qed.
  Lemma bf8_run tw (m : raw T) : run (bf8_prog tw) m = bf8_contig tw m.
  Proof. unfold bf8_contig. together. Qed.
  Lemma bf9_run tw (m : raw T) : run (bf9_prog tw) m = bf9_contig tw m.
  Proof.
    unfold bf9_contig. cbn.
    destruct (rload m 3); [|reflexivity..]. destruct (rload m 6); [|reflexivity..]. destruct (rload m 0); [|reflexivity..].
    destruct (rload m 1); [|reflexivity..]. destruct (rload m 4); [|reflexivity..]. destruct (rload m 7); [|reflexivity..].
    destruct (rload m 2); [|reflexivity..]. destruct (rload m 5); [|reflexivity..]. destruct (rload m 8); [|reflexivity..].
    cbn [bind]. together.
  Qed.
  Lemma bf16_run tw (m : raw T) : run (bf16_prog tw) m = bf16_contig tw m.
  Proof. destruct tw. unfold bf16_contig. together. Qed.
End Faithful.

Lemma kernel_cases {T} {NT : Num T} (Q : nat -> prog (T := T) unit -> (raw T -> res (raw T)) -> Prop) :
  Q 2 bf2_prog bf2_contig -> Q 3 (bf3_prog bf3_new) (bf3_contig bf3_new) -> Q 4 bf4_prog bf4_contig ->
  Q 5 (bf5_prog bf5_new) (bf5_contig bf5_new) -> Q 6 (bf6_prog bf3_new) (bf6_contig bf3_new) ->
  Q 8 (bf8_prog bf8_new) (bf8_contig bf8_new) -> Q 9 (bf9_prog bf9_new) (bf9_contig bf9_new) ->
  Q 16 (bf16_prog bf16_new) (bf16_contig bf16_new) ->
  forall n p c, In (n, p, c) kernels -> Q n p c.
Proof.
  intros H2 H3 H4 H5 H6 H8 H9 H16 n p c [E|[E|[E|[E|[E|[E|[E|[E|[]]]]]]]]]; injection E as <- <- <-; assumption.
Qed.

Lemma C74_faithful_proof {T} {NT : Num T} : forall n p c, In (n, p, c) kernels -> forall m : raw T, run p m = c m.
Proof.
  apply (kernel_cases (fun n p c => forall m : raw T, run p m = c m)); intros m; [apply bf2_run|apply bf3_run|apply bf4_run|apply bf5_run|apply bf6_run|apply bf8_run|apply bf9_run|apply bf16_run].
Qed.

(** the accesses of the kernels *)
Definition rds (l : list nat) := map (fun i => (Rd, i)) l.
Definition wrs (l : list nat) := map (fun i => (Wr, i)) l.
Definition order (n : nat) : list (access * nat) :=
  match n with
  | 4 => rds [0; 2; 1; 3] ++ wrs (seq 0 4)
  | 6 => rds [0; 2; 4; 1; 3; 5] ++ wrs (seq 0 6)
  | 8 => rds [0; 4; 2; 6; 1; 5; 3; 7] ++ wrs (seq 0 8)
  | 9 => rds [3; 6; 0; 6; 0; 3; 0; 3; 6; 1; 4; 7; 2; 5; 8; 7; 4; 8; 5; 1; 4; 2; 5] ++ wrs (seq 0 9)
  | 16 => rds (seq 0 16) ++ wrs [0; 2; 4; 6; 8; 10; 12; 14; 1; 3; 5; 7; 9; 11; 13; 15]
  | _ => rds (seq 0 n) ++ wrs (seq 0 n)
  end.

Lemma order_inplace {T} {NT : Num T} : forall n p c, In (n, p, c) kernels -> forall b : list T, length b = n ->
  accesses p (Alias b) = order n.
Proof.
  apply (kernel_cases (fun n p c => forall b : list T, length b = n -> accesses p (Alias b) = order n)); intros b L.
  - do 2 (destruct b as [|? b]; [discriminate|]); destruct b; [reflexivity|discriminate].
  - do 3 (destruct b as [|? b]; [discriminate|]); destruct b; [reflexivity|discriminate].
  - do 4 (destruct b as [|? b]; [discriminate|]); destruct b; [reflexivity|discriminate].
  - do 5 (destruct b as [|? b]; [discriminate|]); destruct b; [reflexivity|discriminate].
  - do 6 (destruct b as [|? b]; [discriminate|]); destruct b; [reflexivity|discriminate].
  - do 8 (destruct b as [|? b]; [discriminate|]); destruct b; [reflexivity|discriminate].
  - do 9 (destruct b as [|? b]; [discriminate|]); destruct b; [reflexivity|discriminate].
  - do 16 (destruct b as [|? b]; [discriminate|]); destruct b; [reflexivity|discriminate].
Qed.

Lemma order_oop {T} {NT : Num T} : forall n p c, In (n, p, c) kernels -> forall b o : list T, length b = n -> length o = n ->
  accesses p (Sep b o) = order n.
Proof.
  apply (kernel_cases (fun n p c => forall b o : list T, length b = n -> length o = n -> accesses p (Sep b o) = order n)); intros b o L L'.
  - do 2 (destruct b as [|? b]; [discriminate|]); destruct b; [|discriminate]; do 2 (destruct o as [|? o]; [discriminate|]); reflexivity.
  - do 3 (destruct b as [|? b]; [discriminate|]); destruct b; [|discriminate]; do 3 (destruct o as [|? o]; [discriminate|]); reflexivity.
  - do 4 (destruct b as [|? b]; [discriminate|]); destruct b; [|discriminate]; do 4 (destruct o as [|? o]; [discriminate|]); reflexivity.
  - do 5 (destruct b as [|? b]; [discriminate|]); destruct b; [|discriminate]; do 5 (destruct o as [|? o]; [discriminate|]); reflexivity.
  - do 6 (destruct b as [|? b]; [discriminate|]); destruct b; [|discriminate]; do 6 (destruct o as [|? o]; [discriminate|]); reflexivity.
  - do 8 (destruct b as [|? b]; [discriminate|]); destruct b; [|discriminate]; do 8 (destruct o as [|? o]; [discriminate|]); reflexivity.
  - do 9 (destruct b as [|? b]; [discriminate|]); destruct b; [|discriminate]; do 9 (destruct o as [|? o]; [discriminate|]); reflexivity.
  - do 16 (destruct b as [|? b]; [discriminate|]); destruct b; [|discriminate]; do 16 (destruct o as [|? o]; [discriminate|]); reflexivity.
Qed.

Lemma run_events_app {S} (step : S -> event -> option S) l1 l2 : forall s,
  run_events step s (l1 ++ l2) = match run_events step s l1 with Some s' => run_events step s' l2 | None => None end.
Proof.
  assert (N : forall l, fold_left (fun s e => match s with Some s => step s e | None => None end) l None = None)
    by (induction l; simpl; auto).
  induction l1 as [|e l1 IH]; intros s; [reflexivity|]. unfold run_events in *. simpl.
  destruct (step s e) as [s1|]; [apply IH|]. now rewrite !N.
Qed.

(** ** Tree Borrows *)
(** the cell after the two slices were made, before and after the first write *)
Definition tb_ready (p : tree_perm) : borrows :=
  match run_events tb_step (tb_start p) slices_of_one with Some b => b | None => tb_start p end.
Definition tb_written (p : tree_perm) : borrows :=
  match tb_step (tb_ready p) (Use Wr 8) with Some b => b | None => tb_start p end.

Lemma tb_events p acc : p = Reserved \/ p = Active ->
  (accepted (run_events tb_step (tb_start p) (slices_of_one ++ map (through 4 8) acc ++ [Use Rd 0; Use Wr 0])) <-> reads_first acc).
Proof.
  intros Hp. rewrite run_events_app.
  assert (E0 : run_events tb_step (tb_start p) slices_of_one = Some (tb_ready p)) by (destruct Hp; subst p; vm_compute; reflexivity).
  assert (E1 : tb_step (tb_ready p) (Use Rd 4) = Some (tb_ready p)) by (destruct Hp; subst p; vm_compute; reflexivity).
  assert (E2 : tb_step (tb_ready p) (Use Wr 8) = Some (tb_written p)) by (destruct Hp; subst p; vm_compute; reflexivity).
  assert (E3 : tb_step (tb_written p) (Use Wr 8) = Some (tb_written p)) by (destruct Hp; subst p; vm_compute; reflexivity).
  assert (E4 : tb_step (tb_written p) (Use Rd 4) = None) by (destruct Hp; subst p; vm_compute; reflexivity).
  assert (E5 : accepted (run_events tb_step (tb_ready p) [Use Rd 0; Use Wr 0])) by (destruct Hp; subst p; vm_compute; discriminate).
  assert (E6 : accepted (run_events tb_step (tb_written p) [Use Rd 0; Use Wr 0])) by (destruct Hp; subst p; vm_compute; discriminate).
  rewrite E0. rewrite run_events_app.
  assert (W : forall acc, (~ In Rd acc -> run_events tb_step (tb_written p) (map (through 4 8) acc) = Some (tb_written p)) /\
                          (In Rd acc -> run_events tb_step (tb_written p) (map (through 4 8) acc) = None)).
  { clear acc. induction acc as [|a acc [IH1 IH2]]; [split; [reflexivity|intros []]|].
    replace (map (through 4 8) (a :: acc)) with ([through 4 8 a] ++ map (through 4 8) acc) by reflexivity.
    rewrite run_events_app. destruct a.
    - split; [intros H; elim H; now left|intros _].
      change (run_events tb_step (tb_written p) [through 4 8 Rd]) with (tb_step (tb_written p) (Use Rd 4)). now rewrite E4.
    - change (run_events tb_step (tb_written p) [through 4 8 Wr]) with (tb_step (tb_written p) (Use Wr 8)). rewrite E3.
      split; [intros H; apply IH1; intros I; apply H; now right|intros [H|H]; [discriminate|now apply IH2]]. }
  induction acc as [|a acc IH].
  - simpl. split; auto.
  - replace (map (through 4 8) (a :: acc)) with ([through 4 8 a] ++ map (through 4 8) acc) by reflexivity.
    rewrite run_events_app. destruct a; cbn [reads_first].
    + change (run_events tb_step (tb_ready p) [through 4 8 Rd]) with (tb_step (tb_ready p) (Use Rd 4)). now rewrite E1.
    + change (run_events tb_step (tb_ready p) [through 4 8 Wr]) with (tb_step (tb_ready p) (Use Wr 8)). rewrite E2.
      destruct (W acc) as [W1 W2]. split.
      * intros A I. apply A. now rewrite W2.
      * intros I. now rewrite W1.
Qed.

Lemma order_reads_first {T} {NT : Num T} n p c : In (n, p, c) (kernels (T := T)) -> forall i, i < n ->
  reads_first (at_cell i (order n)) /\ hd_error (at_cell i (order n)) = Some Rd.
Proof.
  revert n p c.
  apply (kernel_cases (fun n _ _ => forall i, i < n -> reads_first (at_cell i (order n)) /\ hd_error (at_cell i (order n)) = Some Rd));
    intros i Hi; (do 16 (destruct i as [|i]; [first [solve [split; [cbn; intuition discriminate|reflexivity]]|exfalso; lia]|])); lia.
Qed.

Lemma C74_tree_proof {T} {NT : Num T} n p c : In (n, p, c) kernels -> forall (b : list T) i root,
  length b = n -> i < n -> root = Reserved \/ root = Active ->
  accepted (run_events tb_step (tb_start root) (inplace_events p b i)).
Proof.
  intros I b i root L Hi Hr. unfold inplace_events. rewrite (order_inplace _ _ _ I b L). apply tb_events; auto.
  apply (order_reads_first _ _ _ I i Hi).
Qed.

(** ** Stacked Borrows *)
Lemma fresh_none older t : fresh older -> t <= 10 -> sb_read t older = None.
Proof.
  intros F Ht. induction F as [|[t' p] s Ht' _ IH]; [reflexivity|]. simpl in *. rewrite IH.
  destruct (Nat.eqb_spec t t'); [lia|reflexivity].
Qed.

Lemma C74_stacked_proof {T} {NT : Num T} n p c : In (n, p, c) kernels -> forall (b : list T) i older,
  length b = n -> i < n -> fresh older ->
  hd_error (at_cell i (accesses p (Alias b))) = Some Rd /\
  accepted (run_events sb_step (sb_start older) slices_of_one) /\
  run_events sb_step (sb_start older) (slices_of_one ++ [through 4 8 Rd]) = None /\
  run_events sb_step (sb_start older) (inplace_events p b i) = None.
Proof.
  intros I b i older L Hi F. rewrite (order_inplace _ _ _ I b L). destruct (order_reads_first _ _ _ I i Hi) as [_ H].
  assert (A : accepted (run_events sb_step (sb_start older) slices_of_one)) by (vm_compute; discriminate).
  assert (N : run_events sb_step (sb_start older) (slices_of_one ++ [through 4 8 Rd]) = None).
  { rewrite run_events_app. cbn. rewrite fresh_none; auto; lia. }
  split; auto. split; auto. split; auto.
  unfold inplace_events. rewrite (order_inplace _ _ _ I b L).
  destruct (at_cell i (order n)) as [|a r]; [discriminate|]. injection H as ->.
  cbn [map]. replace (slices_of_one ++ (through 4 8 Rd :: map (through 4 8) r) ++ [Use Rd 0; Use Wr 0])
    with ((slices_of_one ++ [through 4 8 Rd]) ++ map (through 4 8) r ++ [Use Rd 0; Use Wr 0]).
  - rewrite run_events_app. now rewrite N.
  - now rewrite <- app_assoc.
Qed.

(** ** out of place *)
Lemma C74_separate_proof {T} {NT : Num T} n p c : In (n, p, c) kernels -> forall (b o : list T) i older root,
  length b = n -> length o = n -> i < n -> root = Reserved \/ root = Active ->
  accepted (run_events sb_step (sb_start older) (input_events p b o i)) /\
  accepted (run_events sb_step (sb_start older) (output_events p b o i)) /\
  accepted (run_events tb_step (tb_start root) (input_events p b o i)) /\
  accepted (run_events tb_step (tb_start root) (output_events p b o i)).
Proof.
  intros I b o i older root L L' Hi Hr. unfold input_events, output_events. rewrite (order_oop _ _ _ I b o L L').
  clear L L'. revert Hi. revert n p c I.
  match goal with |- forall n p c, In _ _ -> @?Q n => apply (kernel_cases (fun n _ _ => Q n)) end; cbv beta; intros Hi;
    (do 16 (destruct i as [|i]; [first [exfalso; lia|solve [destruct Hr; subst root; repeat split; vm_compute; discriminate]]|])); lia.
Qed.

(** ** one pointer for both *)
Definition sb_one (older : stack) (written : bool) : stack :=
  (if written then [] else [(10, SharedRO)]) ++ [(8, SharedRW); (6, Unique); (5, Unique); (0, Unique)] ++ older.
Definition tb_one (p : tree_perm) (written : bool) : borrows :=
  match run_events tb_step (tb_start p) (slice_of_output ++ if written then [Use Wr 8] else []) with Some b => b | None => tb_start p end.

Lemma C74_repair_proof older root acc : root = Reserved \/ root = Active ->
  accepted (run_events sb_step (sb_start older) (slice_of_output ++ map (through 8 8) acc ++ [Use Rd 0; Use Wr 0])) /\
  accepted (run_events tb_step (tb_start root) (slice_of_output ++ map (through 8 8) acc ++ [Use Rd 0; Use Wr 0])).
Proof.
  intros Hr. rewrite !run_events_app.
  change (run_events sb_step (sb_start older) slice_of_output) with (Some (sb_one older false)).
  assert (E : run_events tb_step (tb_start root) slice_of_output = Some (tb_one root false)) by (destruct Hr; subst root; vm_compute; reflexivity).
  rewrite E. clear E. cbv iota. rewrite !run_events_app. generalize false as w. induction acc as [|a acc IH]; intros w.
  - cbn [map]. destruct w, Hr; subst root; split; vm_compute; discriminate.
  - replace (map (through 8 8) (a :: acc)) with ([through 8 8 a] ++ map (through 8 8) acc) by reflexivity.
    rewrite !run_events_app.
    set (w' := match a with Rd => w | Wr => true end).
    assert (E1 : run_events sb_step (sb_one older w) [through 8 8 a] = Some (sb_one older w')) by (destruct a, w; reflexivity).
    assert (E2 : run_events tb_step (tb_one root w) [through 8 8 a] = Some (tb_one root w')) by (destruct a, w, Hr; subst root; vm_compute; reflexivity).
    rewrite E1, E2. apply IH.
Qed.
