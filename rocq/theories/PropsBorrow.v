(** * Property C74: the in-place butterflies under Rust's aliasing rules

    In place, every butterfly loads through a RawSlice and stores through a RawSliceMut made from the same [&mut [T]].
    [kernels] lists them with their lengths, their accesses in order (Borrow.v) and their model (Butterflies.v);
    [inplace_events p b i] is everything that happens to cell [i] of the buffer [b] in such a call and after it.
    [tb_step] and [sb_step] are Tree Borrows and Stacked Borrows for one cell (BorrowSpec.v). *)
From Verif Require Import Borrow PropsBorrowProof RealDHT.
From Coq Require Import Reals List.
Import ListNotations.

(** the programs do to memory what the model of C02 does *)
Theorem C74_faithful : forall T (N : Num T) n p c, In (n, p, c) (@kernels T N) -> forall m : raw T, run p m = c m.
Proof. exact @C74_faithful_proof. Qed.
Print Assumptions C74_faithful.

(** Tree Borrows allows them *)
Theorem C74_tree : forall T (N : Num T) n p c, In (n, p, c) (@kernels T N) -> forall (b : list T) i root,
  length b = n -> i < n -> root = Reserved \/ root = Active ->
  accepted (run_events tb_step (tb_start root) (inplace_events p b i)).
Proof. exact @C74_tree_proof. Qed.
Print Assumptions C74_tree.

(** because no cell is loaded after it was stored to, and only because of that *)
Theorem C74_tree_exactly : forall root acc, root = Reserved \/ root = Active ->
  (accepted (run_events tb_step (tb_start root) (slices_of_one ++ map (through 4 8) acc ++ [Use Rd 0; Use Wr 0])) <->
   reads_first acc).
Proof. exact tb_events. Qed.
Print Assumptions C74_tree_exactly.

(** Stacked Borrows does not: making the RawSliceMut invalidates the RawSlice, and every cell is loaded first *)
Theorem C74_stacked : forall T (N : Num T) n p c, In (n, p, c) (@kernels T N) -> forall (b : list T) i older,
  length b = n -> i < n -> fresh older ->
  hd_error (at_cell i (accesses p (Alias b))) = Some Rd /\
  accepted (run_events sb_step (sb_start older) slices_of_one) /\
  run_events sb_step (sb_start older) (slices_of_one ++ [through 4 8 Rd]) = None /\
  run_events sb_step (sb_start older) (inplace_events p b i) = None.
Proof. exact @C74_stacked_proof. Qed.
Print Assumptions C74_stacked.

(** out of place both allow the cells of the input and of the output *)
Theorem C74_separate : forall T (N : Num T) n p c, In (n, p, c) (@kernels T N) -> forall (b o : list T) i older root,
  length b = n -> length o = n -> i < n -> root = Reserved \/ root = Active ->
  accepted (run_events sb_step (sb_start older) (input_events p b o i)) /\
  accepted (run_events sb_step (sb_start older) (output_events p b o i)) /\
  accepted (run_events tb_step (tb_start root) (input_events p b o i)) /\
  accepted (run_events tb_step (tb_start root) (output_events p b o i)).
Proof. exact @C74_separate_proof. Qed.
Print Assumptions C74_separate.

(** both allow any loads and stores in place if the loads, too, go through the pointer of the RawSliceMut *)
Theorem C74_repair : forall older root acc, root = Reserved \/ root = Active ->
  accepted (run_events sb_step (sb_start older) (slice_of_output ++ map (through 8 8) acc ++ [Use Rd 0; Use Wr 0])) /\
  accepted (run_events tb_step (tb_start root) (slice_of_output ++ map (through 8 8) acc ++ [Use Rd 0; Use Wr 0])).
Proof. exact C74_repair_proof. Qed.
Print Assumptions C74_repair.

Example C74_case : In (2, @bf2_prog R (RNum rh), @bf2_contig R (RNum rh)) (@kernels R (RNum rh)) /\
  accesses (@bf2_prog R (RNum rh)) (Alias [3; 5]%R) = [(Rd, 0); (Rd, 1); (Wr, 0); (Wr, 1)] /\
  run_events sb_step (sb_start []) slices_of_one =
    Some [(10, SharedRO); (8, SharedRW); (6, Unique); (5, Unique); (0, Unique)].
Proof. split; [now left|split; reflexivity]. Qed.
