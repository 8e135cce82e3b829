(** * The butterflies as sequences of loads and stores

    Butterflies.v says what the kernels of src/scalar/butterflies.rs do to memory; here the same kernels say in which order
    they access it.  [run] relates the two (C74_faithful). *)
From Verif Require Export Butterflies BorrowSpec.

Section Prog.
  Context {T : Type}.
  (** a program that loads through the RawSlice, stores through the RawSliceMut, and otherwise computes on local data *)
  Inductive prog (A : Type) : Type :=
  | Ret (a : res A)
  | Load (i : nat) (k : T -> prog A)
  | Store (v : T) (i : nat) (k : prog A).
  Arguments Ret {A}. Arguments Load {A}. Arguments Store {A}.

  Fixpoint pbind {A B} (p : prog A) (k : A -> prog B) : prog B :=
    match p with
    | Ret (Ok a) => k a
    | Ret Panic => Ret Panic
    | Ret UB => Ret UB
    | Ret Hang => Ret Hang
    | Load i f => Load i (fun v => pbind (f v) k)
    | Store v i p => Store v i (pbind p k)
    end.
  Definition load (i : nat) : prog T := Load i (fun v => Ret (Ok v)).
  Definition store (v : T) (i : nat) : prog unit := Store v i (Ret (Ok tt)).
  Definition local {A} (r : res A) : prog A := Ret r.
  Fixpoint pfor (is_ : list nat) (body : nat -> prog unit) : prog unit :=
    match is_ with [] => Ret (Ok tt) | i :: r => pbind (body i) (fun _ => pfor r body) end.

  (** what it does to memory *)
  Fixpoint run {A} (p : prog A) (m : raw T) : res (raw T) :=
    match p with
    | Ret (Ok _) => Ok m
    | Ret Panic => Panic
    | Ret UB => UB
    | Ret Hang => Hang
    | Load i f => v <- rload m i ;; run (f v) m
    | Store v i p => m <- rstore m v i ;; run p m
    end.
  (** the accesses it makes *)
  Fixpoint accesses {A} (p : prog A) (m : raw T) : list (access * nat) :=
    match p with
    | Ret _ => []
    | Load i f => (Rd, i) :: match rload m i with Ok v => accesses (f v) m | _ => [] end
    | Store v i p => (Wr, i) :: match rstore m v i with Ok m => accesses p m | _ => [] end
    end.
End Prog.
Arguments Ret {T A}. Arguments Load {T A}. Arguments Store {T A}.

Declare Scope prog_scope.
Delimit Scope prog_scope with prog.
Notation "x <- a ;; b" := (pbind a (fun x => b)) : prog_scope.
Notation "' p <- a ;; b" := (pbind a (fun x => match x with p => b end)) : prog_scope.

Section Kernels.
  Context {T : Type} `{Num T}.
  Local Open Scope prog_scope.

  (** butterflies.rs:144-153 *)
  Definition bf2_prog : prog (T := T) unit :=
    value0 <- load 0 ;; value1 <- load 1 ;;
    _ <- store (value0 +! value1) 0 ;;
    store (value0 -! value1) 1.

  (** butterflies.rs:167-188 *)
  Definition bf3_prog (twiddle : cplx T) : prog (T := T) unit :=
    input0 <- load 0 ;; input1 <- load 1 ;; input2 <- load 2 ;;
    let '(input1, input2) := bf2_strided input1 input2 in
    let output0 := input0 +! input1 in
    let input1 := input1 *! re twiddle +! input0 in
    let input2 := input2 *! im twiddle in
    let output1 := input1 +! input2 in
    let output2 := input1 -! input2 in
    _ <- store output0 0 ;;
    _ <- store output1 1 ;;
    store output2 2.

  (** butterflies.rs:202-228 *)
  Definition bf4_prog : prog (T := T) unit :=
    i0 <- load 0 ;; i2 <- load 2 ;;
    let tmp0 := [i0; i2] in
    i1 <- load 1 ;; i3 <- load 3 ;;
    let tmp1 := [i1; i3] in
    tmp0 <- local (bf2_array tmp0) ;;
    tmp1 <- local (bf2_array tmp1) ;;
    '(tmp0, tmp1) <- local (strided2 tmp0 tmp1 0 0) ;;
    '(tmp0, tmp1) <- local (strided2 tmp0 tmp1 1 1) ;;
    a <- local (idx tmp0 0) ;; _ <- store a 0 ;;
    a <- local (idx tmp0 1) ;; _ <- store a 1 ;;
    a <- local (idx tmp1 0) ;; _ <- store a 2 ;;
    a <- local (idx tmp1 1) ;; store a 3.

  (** butterflies.rs:245-289 *)
  Definition bf5_prog (tw : cplx T * cplx T) : prog (T := T) unit :=
    let '(twiddle1, twiddle2) := tw in
    input0 <- load 0 ;; input1 <- load 1 ;; input2 <- load 2 ;; input3 <- load 3 ;; input4 <- load 4 ;;
    let a0 := input1 +! input4 in
    let a1 := input1 -! input4 in
    let a2 := input2 +! input3 in
    let a3 := input2 -! input3 in
    let a01 := a0 *! re twiddle1 in
    let a02 := a0 *! re twiddle2 in
    let a11 := a1 *! im twiddle1 in
    let a12 := a1 *! im twiddle2 in
    let a21 := a2 *! re twiddle1 in
    let a22 := a2 *! re twiddle2 in
    let a31 := a3 *! im twiddle1 in
    let a32 := a3 *! im twiddle2 in
    let a01a22 := a01 +! a22 in
    let a02a21 := a02 +! a21 in
    let a11a32 := a11 +! a32 in
    let a12a31 := a12 -! a31 in
    let out0 := input0 +! a0 +! a2 in
    let out1 := input0 +! a01a22 +! a11a32 in
    let out2 := input0 +! a02a21 +! a12a31 in
    let out3 := input0 +! a02a21 -! a12a31 in
    let out4 := input0 +! a01a22 -! a11a32 in
    _ <- store out0 0 ;; _ <- store out1 1 ;; _ <- store out2 2 ;; _ <- store out3 3 ;; store out4 4.

  (** butterflies.rs:304-340 *)
  Definition bf6_prog (twiddle : cplx T) : prog (T := T) unit :=
    i0 <- load 0 ;; i2 <- load 2 ;; i4 <- load 4 ;;
    let chunk0 := [i0; i2; i4] in
    i1 <- load 1 ;; i3 <- load 3 ;; i5 <- load 5 ;;
    let chunk1 := [i1; i3; i5] in
    chunk0 <- local (bf3_array twiddle chunk0) ;;
    chunk1 <- local (bf3_array twiddle chunk1) ;;
    input_top_fwd <- local (idx chunk1 1) ;;
    input_top_rev <- local (idx chunk1 2) ;;
    chunk1 <- local (set chunk1 1 (im twiddle *! input_top_rev -! re twiddle *! input_top_fwd)) ;;
    chunk1 <- local (set chunk1 2 ((-! (re twiddle)) *! input_top_rev -! im twiddle *! input_top_fwd)) ;;
    '(chunk0, chunk1) <- local (strided2 chunk0 chunk1 0 0) ;;
    '(chunk0, chunk1) <- local (strided2 chunk0 chunk1 1 1) ;;
    '(chunk0, chunk1) <- local (strided2 chunk0 chunk1 2 2) ;;
    a <- local (idx chunk0 0) ;; _ <- store a 0 ;;
    a <- local (idx chunk0 1) ;; _ <- store a 1 ;;
    a <- local (idx chunk1 2) ;; _ <- store a 2 ;;
    a <- local (idx chunk1 0) ;; _ <- store a 3 ;;
    a <- local (idx chunk1 1) ;; _ <- store a 4 ;;
    a <- local (idx chunk0 2) ;; store a 5.

  (** butterflies.rs:353-402 *)
  Definition bf8_prog (twiddle : T) : prog (T := T) unit :=
    i0 <- load 0 ;; i4 <- load 4 ;; i2 <- load 2 ;; i6 <- load 6 ;;
    let chunk0 := [i0; i4; i2; i6] in
    i1 <- load 1 ;; i5 <- load 5 ;; i3 <- load 3 ;; i7 <- load 7 ;;
    let chunk1 := [i1; i5; i3; i7] in
    chunk0 <- local (on_range chunk0 0 2 bf2_array) ;;
    chunk0 <- local (on_range chunk0 2 2 bf2_array) ;;
    chunk1 <- local (on_range chunk1 0 2 bf2_array) ;;
    chunk1 <- local (on_range chunk1 2 2 bf2_array) ;;
    chunk0 <- local (strided1 chunk0 0 2) ;;
    chunk0 <- local (strided1 chunk0 1 3) ;;
    chunk1 <- local (strided1 chunk1 0 2) ;;
    a <- local (idx chunk1 1) ;; chunk1 <- local (set chunk1 1 (a *! twiddle)) ;;
    a <- local (idx chunk1 3) ;; chunk1 <- local (set chunk1 3 (a *! twiddle)) ;;
    '(chunk0, chunk1) <- local (for_range 0 4 (fun i '(chunk0, chunk1) => strided2 chunk0 chunk1 i i)
                                  (chunk0, chunk1)) ;;
    a <- local (idx chunk0 0) ;; _ <- store a 0 ;;
    a <- local (idx chunk0 1) ;; _ <- store a 1 ;;
    a <- local (idx chunk0 2) ;; _ <- store a 2 ;;
    a <- local (idx chunk0 3) ;; _ <- store a 3 ;;
    a <- local (idx chunk1 0) ;; _ <- store a 4 ;;
    a <- local (idx chunk1 1) ;; _ <- store a 5 ;;
    a <- local (idx chunk1 2) ;; _ <- store a 6 ;;
    a <- local (idx chunk1 3) ;; store a 7.

  (** butterflies.rs:425-490, with the repeated loads of the source *)
  Definition bf9_prog (s : bf9) : prog (T := T) unit :=
    in3 <- load 3 ;; in6 <- load 6 ;;
    let t1 := (in3 -! in6) *! butterfly3_twiddle s in
    in0 <- load 0 ;; in6 <- load 6 ;;
    let t2 := in0 -! in6 in
    in0 <- load 0 ;; in3 <- load 3 ;;
    let t3 := in0 -! in3 in
    let w1 := t2 +! t1 in
    let w2 := t3 -! t1 in
    in0 <- load 0 ;; in3 <- load 3 ;; in6 <- load 6 ;;
    let x0 := in0 +! in3 +! in6 in
    in1 <- load 1 ;; in4 <- load 4 ;; in7 <- load 7 ;;
    let x3 := in1 +! in4 +! in7 in
    in2 <- load 2 ;; in5 <- load 5 ;; in8 <- load 8 ;;
    let x6 := in2 +! in5 +! in8 in
    let t1 := (x3 -! x6) *! butterfly3_twiddle s in
    let t2 := x0 +! x3 +! x6 in
    let t3 := x0 -! x6 +! t1 in
    let x6 := x0 -! x3 -! t1 in
    let x3 := t3 in
    let x0 := t2 in
    in7 <- load 7 ;; in4 <- load 4 ;;
    let t1 := in7 -! in4 in
    in8 <- load 8 ;; in5 <- load 5 ;;
    let t2 := in8 -! in5 in
    in1 <- load 1 ;; in4 <- load 4 ;;
    let t3 := in1 -! in4 in
    in2 <- load 2 ;; in5 <- load 5 ;;
    let t4 := in2 -! in5 in
    let v1 := t1 +! t4 in
    let t4 := t1 -! t4 in
    let t1 := v1 in
    let v2 := t2 +! t3 in
    let t3 := t2 -! t3 in
    let t2 := v2 in
    let v1 := (t1 -! t2) *! re (bf9_twiddle4 s) in
    let v2 := t1 *! re (bf9_twiddle2 s) in
    let v3 := t2 *! re (bf9_twiddle1 s) in
    let t1 := v1 -! v3 in
    let t2 := (-! v1) -! v2 in
    let v1 := (t3 +! t4) *! im (bf9_twiddle4 s) in
    let v2 := t3 *! im (bf9_twiddle1 s) in
    let v3 := t4 *! im (bf9_twiddle2 s) in
    let t3 := (-! v1) -! v2 in
    let t4 := v3 -! v1 in
    let x2 := t1 +! t3 in
    let x4 := t2 +! t4 in
    let x7 := t1 -! t3 in
    let x5 := t2 -! t4 in
    let x1 := (-! x7) -! x4 +! w1 in
    let x8 := (-! x5) -! x2 +! w2 in
    let x2 := x2 +! w2 in
    let x4 := x4 +! w1 in
    let x7 := x7 +! w1 in
    let x5 := x5 +! w2 in
    _ <- store x0 0 ;; _ <- store x1 1 ;; _ <- store x2 2 ;; _ <- store x3 3 ;; _ <- store x4 4 ;;
    _ <- store x5 5 ;; _ <- store x6 6 ;; _ <- store x7 7 ;; store x8 8.

  (** butterflies.rs:508-573 *)
  Definition bf16_prog (tw : T * cplx T) : prog (T := T) unit :=
    let '(tw8, twiddle) := tw in
    i0 <- load 0 ;; i1 <- load 1 ;; i2 <- load 2 ;; i3 <- load 3 ;;
    i4 <- load 4 ;; i5 <- load 5 ;; i6 <- load 6 ;; i7 <- load 7 ;;
    let chunk0 := [i0; i1; i2; i3; i4; i5; i6; i7] in
    i8 <- load 8 ;; i9 <- load 9 ;; i10 <- load 10 ;; i11 <- load 11 ;;
    i12 <- load 12 ;; i13 <- load 13 ;; i14 <- load 14 ;; i15 <- load 15 ;;
    let chunk1 := [i8; i9; i10; i11; i12; i13; i14; i15] in
    '(chunk0, chunk1) <- local (for_range 0 8 (fun i '(chunk0, chunk1) => strided2 chunk0 chunk1 i i)
                                  (chunk0, chunk1)) ;;
    chunk0 <- local (bf8_array tw8 chunk0) ;;
    _ <- pfor (seq 0 8) (fun i => a <- local (idx chunk0 i) ;; store a (i * 2)) ;;
    chunk1 <- local (bf2_indexed chunk1 0 4) ;;
    chunk1 <- local (bf2_indexed chunk1 1 3) ;;
    chunk1 <- local (bf2_indexed chunk1 7 5) ;;
    c0 <- local (idx chunk1 0) ;; c1 <- local (idx chunk1 1) ;; c2 <- local (idx chunk1 2) ;;
    c3 <- local (idx chunk1 3) ;; c4 <- local (idx chunk1 4) ;; c5 <- local (idx chunk1 5) ;;
    c6 <- local (idx chunk1 6) ;; c7 <- local (idx chunk1 7) ;;
    let post_twiddle := [
        c0;
        c1 *! re twiddle +! c5 *! im twiddle;
        c2 *! tw8;
        c1 *! im twiddle -! c5 *! re twiddle;
        c4;
        c3 *! im twiddle +! c7 *! re twiddle;
        c6 *! tw8;
        c3 *! re twiddle -! c7 *! im twiddle ] in
    '(post_twiddle1, post_twiddle3) <- local (split_at post_twiddle 4) ;;
    post_twiddle1 <- local (bf4_array post_twiddle1) ;;
    post_twiddle3 <- local (bf4_array post_twiddle3) ;;
    pfor (seq 0 4) (fun i =>
      a <- local (idx post_twiddle1 i) ;; _ <- store a (i * 4 + 1) ;;
      a <- local (idx post_twiddle3 i) ;; store a (i * 4 + 3)).

  (** the kernels with their lengths *)
  Definition kernels : list (nat * prog (T := T) unit * (raw T -> res (raw T))) :=
    [(2, bf2_prog, bf2_contig);
     (3, bf3_prog bf3_new, bf3_contig bf3_new);
     (4, bf4_prog, bf4_contig);
     (5, bf5_prog bf5_new, bf5_contig bf5_new);
     (6, bf6_prog bf3_new, bf6_contig bf3_new);
     (8, bf8_prog bf8_new, bf8_contig bf8_new);
     (9, bf9_prog bf9_new, bf9_contig bf9_new);
     (16, bf16_prog bf16_new, bf16_contig bf16_new)].
End Kernels.

(** butterflies.rs:16 and :21, [perform_dht_contiguous(RawSlice::new(buffer), RawSliceMut::new(buffer))], for one cell of the
    buffer.  Pointer 0 is [buffer].  array_utils.rs:71-76 RawSlice::new: [&*buffer] (1), the parameter [slice] (2), the [&self]
    of as_ptr (3), its result (4), the [&self] of len (9); array_utils.rs:112-117 RawSliceMut::new: [&mut *buffer] (5), [slice] (6),
    the [&mut self] of as_mut_ptr (7), its result (8), the [&self] of len (10). *)
Definition slice_of_input : list event := [RefShared 0 1; RefShared 1 2; RefShared 2 3; RawConst 3 4; RefShared 2 9].
Definition slice_of_output : list event := [RefMut 0 5; RefMut 5 6; RefMut 6 7; RawMut 7 8; RefShared 6 10].
Definition slices_of_one : list event := slice_of_input ++ slice_of_output.
(** loads go through pointer [l], stores through [s] *)
Definition through (l s : nat) (a : access) : event := Use a (match a with Rd => l | Wr => s end).
Definition at_cell (c : nat) (l : list (access * nat)) : list access := map fst (filter (fun x => snd x =? c) l).
(** everything that happens to cell [c] in an in-place call; afterwards the caller reads and writes through [buffer] *)
Definition inplace_events {T} (p : prog (T := T) unit) (buffer : list T) (c : nat) : list event :=
  slices_of_one ++ map (through 4 8) (at_cell c (accesses p (Alias buffer))) ++ [Use Rd 0; Use Wr 0].

(** butterflies.rs:43-46, the out-of-place call: cell [c] of the input (of the output); the RawSlice and RawSliceMut come from
    different references *)
Definition reads (l : list (access * nat)) := filter (fun x => match fst x with Rd => true | Wr => false end) l.
Definition writes (l : list (access * nat)) := filter (fun x => match fst x with Rd => false | Wr => true end) l.
Definition input_events {T} (p : prog (T := T) unit) (input output : list T) (c : nat) : list event :=
  slice_of_input ++ map (through 4 8) (at_cell c (reads (accesses p (Sep input output)))) ++ [Use Rd 0; Use Wr 0].
Definition output_events {T} (p : prog (T := T) unit) (input output : list T) (c : nat) : list event :=
  slice_of_output ++ map (through 4 8) (at_cell c (writes (accesses p (Sep input output)))) ++ [Use Rd 0; Use Wr 0].
