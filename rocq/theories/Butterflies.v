(** * Model of src/scalar/butterflies.rs *)
From Verif Require Export Trait.

(** The memory seen by [perform_dht_contiguous(RawSlice input, RawSliceMut output)]: either two
    separate slices (out of place, butterflies.rs:43-46) or the same memory twice (in place,
    butterflies.rs:16,21). *)
Inductive raw (T : Type) : Type :=
| Sep (input output : list T)
| Alias (buffer : list T).
Arguments Sep {T} input output.
Arguments Alias {T} buffer.

Section Raw.
  Context {T : Type}.
  (** src/array_utils.rs:98-101 RawSlice::load *)
  Definition rload (m : raw T) (i : nat) : res T :=
    match m with
    | Sep input _ => uidx input i
    | Alias b => uidx b i
    end.
  (** src/array_utils.rs:137-140 RawSliceMut::store *)
  Definition rstore (m : raw T) (v : T) (i : nat) : res (raw T) :=
    match m with
    | Sep input output => o <- uset output i v ;; Ok (Sep input o)
    | Alias b => b' <- uset b i v ;; Ok (Alias b')
    end.
  (** butterflies.rs:15-17 perform_dht_butterfly and :20-22 perform_dht_array *)
  Definition run_alias (contig : raw T -> res (raw T)) (buffer : list T) : res (list T) :=
    m <- contig (Alias buffer) ;;
    match m with Alias b => Ok b | Sep _ o => Ok o end.
  (** butterflies.rs:43-46: the out-of-place call *)
  Definition run_sep (contig : raw T -> res (raw T)) (input output : list T)
    : res (list T * list T) :=
    m <- contig (Sep input output) ;;
    match m with Sep i o => Ok (i, o) | Alias b => Ok (input, b) end.
End Raw.

Section Butterflies.
  Context {T : Type} `{Num T}.

  (** butterflies.rs:11-90 boilerplate_fft_butterfly! *)
  Definition boilerplate_butterfly (len : nat) (contig : raw T -> res (raw T)) : Dht T :=
    mkDht len 0 0
      (fun buffer scratch =>                       (* :57-73 *)
         if length buffer <? len then
           _ <- dht_error_inplace len (length buffer) 0 0 ;; Ok (buffer, scratch)
         else
           '(buffer', _, ok) <- iter_chunks buffer len (fun chunk (u : unit) =>
               chunk' <- run_alias contig chunk ;; Ok (chunk', u)) tt ;;
           if ok then Ok (buffer', scratch)
           else _ <- dht_error_inplace len (length buffer) 0 0 ;; Ok (buffer', scratch))
      (fun input output scratch =>                 (* :25-56 *)
         if (length input <? len) || negb (length output =? length input) then
           _ <- dht_error_outofplace len (length input) (length output) 0 0 ;;
           Ok (input, output, scratch)
         else
           '(input', output', _, ok) <-
              iter_chunks_zipped input output len (fun in_chunk out_chunk (u : unit) =>
                '(i', o') <- run_sep contig in_chunk out_chunk ;; Ok (i', o', u)) tt ;;
           if ok then Ok (input', output', scratch)
           else
             _ <- dht_error_outofplace len (length input) (length output) 0 0 ;;
             Ok (input', output', scratch)).

  (** butterflies.rs:101-117 Butterfly1 *)
  Definition butterfly1 : Dht T :=
    mkDht 1 0 0
      (fun buffer scratch => Ok (buffer, scratch))
      (fun input output scratch =>
         output' <- copy_from_slice output input ;; Ok (input, output', scratch)).

  (** butterflies.rs:129-134 Butterfly2::perform_dht_strided(left, right): new (left, right) *)
  Definition bf2_strided (left right : T) : T * T := (left +! right, left -! right).

  (** [perform_dht_strided(&mut a[i], &mut a[j])] on two cells of one local array *)
  Definition strided1 (a : list T) (i j : nat) : res (list T) :=
    l <- idx a i ;; r <- idx a j ;;
    let '(l', r') := bf2_strided l r in
    a <- set a i l' ;; set a j r'.

  (** [perform_dht_strided(&mut a[i], &mut b[j])] on cells of two local arrays *)
  Definition strided2 (a b : list T) (i j : nat) : res (list T * list T) :=
    l <- idx a i ;; r <- idx b j ;;
    let '(l', r') := bf2_strided l r in
    a <- set a i l' ;; b <- set b j r' ;; Ok (a, b).

  (** butterflies.rs:136-142 Butterfly2::perform_dht_indexed *)
  Definition bf2_indexed (buffer : list T) (index0 index1 : nat) : res (list T) :=
    input0 <- uidx buffer index0 ;;
    input1 <- uidx buffer index1 ;;
    buffer <- uset buffer index0 (input0 +! input1) ;;
    uset buffer index1 (input0 -! input1).

  (** butterflies.rs:144-153 Butterfly2::perform_dht_contiguous *)
  Definition bf2_contig (m : raw T) : res (raw T) :=
    value0 <- rload m 0 ;;
    value1 <- rload m 1 ;;
    m <- rstore m (value0 +! value1) 0 ;;
    rstore m (value0 -! value1) 1.
  Definition bf2_array := run_alias bf2_contig.

  (** butterflies.rs:163-165 Butterfly3::new *)
  Definition bf3_new : cplx T := compute_dft_twiddle_inverse 1 3.

  (** butterflies.rs:167-188 Butterfly3::perform_dht_contiguous *)
  Definition bf3_contig (twiddle : cplx T) (m : raw T) : res (raw T) :=
    input0 <- rload m 0 ;;
    input1 <- rload m 1 ;;
    input2 <- rload m 2 ;;
    let '(input1, input2) := bf2_strided input1 input2 in
    let output0 := input0 +! input1 in
    let input1 := input1 *! re twiddle +! input0 in
    let input2 := input2 *! im twiddle in
    let output1 := input1 +! input2 in
    let output2 := input1 -! input2 in
    m <- rstore m output0 0 ;;
    m <- rstore m output1 1 ;;
    rstore m output2 2.
  Definition bf3_array (tw : cplx T) := run_alias (bf3_contig tw).

  (** butterflies.rs:202-228 Butterfly4::perform_dht_contiguous *)
  Definition bf4_contig (m : raw T) : res (raw T) :=
    i0 <- rload m 0 ;; i2 <- rload m 2 ;;
    let tmp0 := [i0; i2] in
    i1 <- rload m 1 ;; i3 <- rload m 3 ;;
    let tmp1 := [i1; i3] in
    tmp0 <- bf2_array tmp0 ;;
    tmp1 <- bf2_array tmp1 ;;
    '(tmp0, tmp1) <- strided2 tmp0 tmp1 0 0 ;;
    '(tmp0, tmp1) <- strided2 tmp0 tmp1 1 1 ;;
    a <- idx tmp0 0 ;; m <- rstore m a 0 ;;
    a <- idx tmp0 1 ;; m <- rstore m a 1 ;;
    a <- idx tmp1 0 ;; m <- rstore m a 2 ;;
    a <- idx tmp1 1 ;; rstore m a 3.
  Definition bf4_array := run_alias bf4_contig.

  (** butterflies.rs:238-243 Butterfly5::new *)
  Definition bf5_new : cplx T * cplx T :=
    (compute_dft_twiddle_inverse 1 5, compute_dft_twiddle_inverse 2 5).

  (** butterflies.rs:245-289 Butterfly5::perform_dht_contiguous *)
  Definition bf5_contig (tw : cplx T * cplx T) (m : raw T) : res (raw T) :=
    let '(twiddle1, twiddle2) := tw in
    input0 <- rload m 0 ;; input1 <- rload m 1 ;; input2 <- rload m 2 ;;
    input3 <- rload m 3 ;; input4 <- rload m 4 ;;
    let a0 := input1 +! input4 in
    let a1 := input1 -! input4 in
    let a2 := input2 +! input3 in
    let a3 := input2 -! input3 in
    let a01 := a0 *! re twiddle1 in
    let a02 := a0 *! re twiddle2 in
    let a11 := a1 *! im twiddle1 in
    let a12 := a1 *! im twiddle2 in
    let a21 := a2 *! re twiddle1 in
    let a22 := a2 *! re twiddle2 in
    let a31 := a3 *! im twiddle1 in
    let a32 := a3 *! im twiddle2 in
    let a01a22 := a01 +! a22 in
    let a02a21 := a02 +! a21 in
    let a11a32 := a11 +! a32 in
    let a12a31 := a12 -! a31 in
    let out0 := input0 +! a0 +! a2 in
    let out1 := input0 +! a01a22 +! a11a32 in
    let out2 := input0 +! a02a21 +! a12a31 in
    let out3 := input0 +! a02a21 -! a12a31 in
    let out4 := input0 +! a01a22 -! a11a32 in
    m <- rstore m out0 0 ;; m <- rstore m out1 1 ;; m <- rstore m out2 2 ;;
    m <- rstore m out3 3 ;; rstore m out4 4.
  Definition bf5_array (tw : cplx T * cplx T) := run_alias (bf5_contig tw).

  (** butterflies.rs:304-340 Butterfly6::perform_dht_contiguous; its only field is the Butterfly3 *)
  Definition bf6_contig (twiddle : cplx T) (m : raw T) : res (raw T) :=
    i0 <- rload m 0 ;; i2 <- rload m 2 ;; i4 <- rload m 4 ;;
    let chunk0 := [i0; i2; i4] in
    i1 <- rload m 1 ;; i3 <- rload m 3 ;; i5 <- rload m 5 ;;
    let chunk1 := [i1; i3; i5] in
    chunk0 <- bf3_array twiddle chunk0 ;;
    chunk1 <- bf3_array twiddle chunk1 ;;
    input_top_fwd <- idx chunk1 1 ;;
    input_top_rev <- idx chunk1 2 ;;
    chunk1 <- set chunk1 1 (im twiddle *! input_top_rev -! re twiddle *! input_top_fwd) ;;
    chunk1 <- set chunk1 2 ((-! (re twiddle)) *! input_top_rev -! im twiddle *! input_top_fwd) ;;
    '(chunk0, chunk1) <- strided2 chunk0 chunk1 0 0 ;;
    '(chunk0, chunk1) <- strided2 chunk0 chunk1 1 1 ;;
    '(chunk0, chunk1) <- strided2 chunk0 chunk1 2 2 ;;
    a <- idx chunk0 0 ;; m <- rstore m a 0 ;;
    a <- idx chunk0 1 ;; m <- rstore m a 1 ;;
    a <- idx chunk1 2 ;; m <- rstore m a 2 ;;
    a <- idx chunk1 0 ;; m <- rstore m a 3 ;;
    a <- idx chunk1 1 ;; m <- rstore m a 4 ;;
    a <- idx chunk0 2 ;; rstore m a 5.
  Definition bf6_array (tw : cplx T) := run_alias (bf6_contig tw).

  (** [f(&mut a[lo..lo+n])] on a sub-slice of a local array *)
  Definition on_range (a : list T) (lo n : nat) (f : list T -> res (list T)) : res (list T) :=
    '(before, rest) <- split_at a lo ;;
    '(mid, after) <- split_at rest n ;;
    mid' <- f mid ;;
    Ok (before ++ mid' ++ after).

  (** butterflies.rs:349-351 Butterfly8::new *)
  Definition bf8_new : T := compute_dht_twiddle 1 8.

  (** butterflies.rs:353-402 Butterfly8::perform_dht_contiguous.  The split_at_mut(2) halves
      split0/split1 of chunk0 (split2/split3 of chunk1) are addressed as cells 0,1 / 2,3. *)
  Definition bf8_contig (twiddle : T) (m : raw T) : res (raw T) :=
    i0 <- rload m 0 ;; i4 <- rload m 4 ;; i2 <- rload m 2 ;; i6 <- rload m 6 ;;
    let chunk0 := [i0; i4; i2; i6] in
    i1 <- rload m 1 ;; i5 <- rload m 5 ;; i3 <- rload m 3 ;; i7 <- rload m 7 ;;
    let chunk1 := [i1; i5; i3; i7] in
    chunk0 <- on_range chunk0 0 2 bf2_array ;;
    chunk0 <- on_range chunk0 2 2 bf2_array ;;
    chunk1 <- on_range chunk1 0 2 bf2_array ;;
    chunk1 <- on_range chunk1 2 2 bf2_array ;;
    chunk0 <- strided1 chunk0 0 2 ;;
    chunk0 <- strided1 chunk0 1 3 ;;
    chunk1 <- strided1 chunk1 0 2 ;;
    a <- idx chunk1 1 ;; chunk1 <- set chunk1 1 (a *! twiddle) ;;
    a <- idx chunk1 3 ;; chunk1 <- set chunk1 3 (a *! twiddle) ;;
    '(chunk0, chunk1) <- for_range 0 4 (fun i '(chunk0, chunk1) => strided2 chunk0 chunk1 i i)
                           (chunk0, chunk1) ;;
    a <- idx chunk0 0 ;; m <- rstore m a 0 ;;
    a <- idx chunk0 1 ;; m <- rstore m a 1 ;;
    a <- idx chunk0 2 ;; m <- rstore m a 2 ;;
    a <- idx chunk0 3 ;; m <- rstore m a 3 ;;
    a <- idx chunk1 0 ;; m <- rstore m a 4 ;;
    a <- idx chunk1 1 ;; m <- rstore m a 5 ;;
    a <- idx chunk1 2 ;; m <- rstore m a 6 ;;
    a <- idx chunk1 3 ;; rstore m a 7.
  Definition bf8_array (tw : T) := run_alias (bf8_contig tw).

  (** butterflies.rs:406-411 struct Butterfly9 *)
  Record bf9 := Bf9 {
    butterfly3_twiddle : T;
    bf9_twiddle1 : cplx T;
    bf9_twiddle2 : cplx T;
    bf9_twiddle4 : cplx T }.

  (** butterflies.rs:415-423 Butterfly9::new *)
  Definition bf9_new : bf9 :=
    let butterfly_twiddle := compute_dft_twiddle_forward 1 3 in
    Bf9 (re butterfly_twiddle -! im butterfly_twiddle)
        (compute_dft_twiddle_inverse 1 9)
        (compute_dft_twiddle_inverse 2 9)
        (compute_dft_twiddle_inverse 4 9).

  (** butterflies.rs:425-490 Butterfly9::perform_dht_contiguous.  All loads precede all stores, and
      loads are repeated in the source; here each cell is loaded once into [in_i]. *)
  Definition bf9_contig (s : bf9) (m : raw T) : res (raw T) :=
    in3 <- rload m 3 ;; in6 <- rload m 6 ;; in0 <- rload m 0 ;;
    in1 <- rload m 1 ;; in4 <- rload m 4 ;; in7 <- rload m 7 ;;
    in2 <- rload m 2 ;; in5 <- rload m 5 ;; in8 <- rload m 8 ;;
    let t1 := (in3 -! in6) *! butterfly3_twiddle s in
    let t2 := in0 -! in6 in
    let t3 := in0 -! in3 in
    let w1 := t2 +! t1 in
    let w2 := t3 -! t1 in
    let x0 := in0 +! in3 +! in6 in
    let x3 := in1 +! in4 +! in7 in
    let x6 := in2 +! in5 +! in8 in
    let t1 := (x3 -! x6) *! butterfly3_twiddle s in
    let t2 := x0 +! x3 +! x6 in
    let t3 := x0 -! x6 +! t1 in
    let x6 := x0 -! x3 -! t1 in
    let x3 := t3 in
    let x0 := t2 in
    let t1 := in7 -! in4 in
    let t2 := in8 -! in5 in
    let t3 := in1 -! in4 in
    let t4 := in2 -! in5 in
    let v1 := t1 +! t4 in
    let t4 := t1 -! t4 in
    let t1 := v1 in
    let v2 := t2 +! t3 in
    let t3 := t2 -! t3 in
    let t2 := v2 in
    let v1 := (t1 -! t2) *! re (bf9_twiddle4 s) in
    let v2 := t1 *! re (bf9_twiddle2 s) in
    let v3 := t2 *! re (bf9_twiddle1 s) in
    let t1 := v1 -! v3 in
    let t2 := (-! v1) -! v2 in
    let v1 := (t3 +! t4) *! im (bf9_twiddle4 s) in
    let v2 := t3 *! im (bf9_twiddle1 s) in
    let v3 := t4 *! im (bf9_twiddle2 s) in
    let t3 := (-! v1) -! v2 in
    let t4 := v3 -! v1 in
    let x2 := t1 +! t3 in
    let x4 := t2 +! t4 in
    let x7 := t1 -! t3 in
    let x5 := t2 -! t4 in
    let x1 := (-! x7) -! x4 +! w1 in
    let x8 := (-! x5) -! x2 +! w2 in
    let x2 := x2 +! w2 in
    let x4 := x4 +! w1 in
    let x7 := x7 +! w1 in
    let x5 := x5 +! w2 in
    m <- rstore m x0 0 ;; m <- rstore m x1 1 ;; m <- rstore m x2 2 ;;
    m <- rstore m x3 3 ;; m <- rstore m x4 4 ;; m <- rstore m x5 5 ;;
    m <- rstore m x6 6 ;; m <- rstore m x7 7 ;; rstore m x8 8.

  (** butterflies.rs:501-506 Butterfly16::new: the inner Butterfly8 twiddle and its own twiddle *)
  Definition bf16_new : T * cplx T := (bf8_new, compute_dft_twiddle_inverse 1 16).

  (** butterflies.rs:508-573 Butterfly16::perform_dht_contiguous.  Note that the even outputs are
      stored (line 545) before the second half is processed, as in the source. *)
  Definition bf16_contig (tw : T * cplx T) (m : raw T) : res (raw T) :=
    let '(tw8, twiddle) := tw in
    i0 <- rload m 0 ;; i1 <- rload m 1 ;; i2 <- rload m 2 ;; i3 <- rload m 3 ;;
    i4 <- rload m 4 ;; i5 <- rload m 5 ;; i6 <- rload m 6 ;; i7 <- rload m 7 ;;
    let chunk0 := [i0; i1; i2; i3; i4; i5; i6; i7] in
    i8 <- rload m 8 ;; i9 <- rload m 9 ;; i10 <- rload m 10 ;; i11 <- rload m 11 ;;
    i12 <- rload m 12 ;; i13 <- rload m 13 ;; i14 <- rload m 14 ;; i15 <- rload m 15 ;;
    let chunk1 := [i8; i9; i10; i11; i12; i13; i14; i15] in
    '(chunk0, chunk1) <- for_range 0 8 (fun i '(chunk0, chunk1) => strided2 chunk0 chunk1 i i)
                           (chunk0, chunk1) ;;
    chunk0 <- bf8_array tw8 chunk0 ;;
    m <- for_range 0 8 (fun i m => a <- idx chunk0 i ;; rstore m a (i * 2)) m ;;
    chunk1 <- bf2_indexed chunk1 0 4 ;;
    chunk1 <- bf2_indexed chunk1 1 3 ;;
    chunk1 <- bf2_indexed chunk1 7 5 ;;
    c0 <- idx chunk1 0 ;; c1 <- idx chunk1 1 ;; c2 <- idx chunk1 2 ;; c3 <- idx chunk1 3 ;;
    c4 <- idx chunk1 4 ;; c5 <- idx chunk1 5 ;; c6 <- idx chunk1 6 ;; c7 <- idx chunk1 7 ;;
    let post_twiddle := [
        c0;
        c1 *! re twiddle +! c5 *! im twiddle;
        c2 *! tw8;
        c1 *! im twiddle -! c5 *! re twiddle;
        c4;
        c3 *! im twiddle +! c7 *! re twiddle;
        c6 *! tw8;
        c3 *! re twiddle -! c7 *! im twiddle ] in
    '(post_twiddle1, post_twiddle3) <- split_at post_twiddle 4 ;;
    post_twiddle1 <- bf4_array post_twiddle1 ;;
    post_twiddle3 <- bf4_array post_twiddle3 ;;
    for_range 0 4 (fun i m =>
      a <- idx post_twiddle1 i ;; m <- rstore m a (i * 4 + 1) ;;
      a <- idx post_twiddle3 i ;; rstore m a (i * 4 + 3)) m.

  (** The Dht impls: boilerplate_fft_butterfly!(ButterflyN, N) with N::new() *)
  Definition butterfly2 : Dht T := boilerplate_butterfly 2 bf2_contig.          (* :122 *)
  Definition butterfly3 : Dht T := boilerplate_butterfly 3 (bf3_contig bf3_new).  (* :160 *)
  Definition butterfly4 : Dht T := boilerplate_butterfly 4 bf4_contig.          (* :195 *)
  Definition butterfly5 : Dht T := boilerplate_butterfly 5 (bf5_contig bf5_new).  (* :235 *)
  Definition butterfly6 : Dht T := boilerplate_butterfly 6 (bf6_contig bf3_new).  (* :295 *)
  Definition butterfly8 : Dht T := boilerplate_butterfly 8 (bf8_contig bf8_new).  (* :346 *)
  Definition butterfly9 : Dht T := boilerplate_butterfly 9 (bf9_contig bf9_new).  (* :412 *)
  Definition butterfly16 : Dht T := boilerplate_butterfly 16 (bf16_contig bf16_new). (* :498 *)
End Butterflies.
