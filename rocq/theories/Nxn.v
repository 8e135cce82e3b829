(** * Model of src/scalar/radix2.rs, radix3.rs, radix5.rs, radix6.rs and of MixedRadix4xn in radix4.rs

    The five MixedRadixNxn structs share their text except for the width, the twiddle table and the
    column kernel; the shared text is modelled once, parameterised by those three, and every
    instantiation cites its own lines. *)
From Verif Require Export Butterflies.

Section Columns.
  Context {T : Type} `{Num T}.

  (** [split_buffer[r][c]] where split_buffer are the first chunks of [buf.chunks_exact_mut(h)] *)
  Definition row_get (h : nat) (buf : list T) (r c : nat) : res T :=
    if c <? h then idx buf (r * h + c) else Panic.
  Definition row_set (h : nat) (buf : list T) (r c : nat) (v : T) : res (list T) :=
    if c <? h then set buf (r * h + c) v else Panic.

  (** reading [split_buffer[r][c]] for the rows [rs] *)
  Fixpoint read_rows (h : nat) (buf : list T) (rs : list nat) (c : nat) : res (list T) :=
    match rs with
    | [] => Ok []
    | r :: t => v <- row_get h buf r c ;; l <- read_rows h buf t c ;; Ok (v :: l)
    end.
  Definition read_col (k h : nat) (buf : list T) (c : nat) : res (list T) :=
    read_rows h buf (seq 0 k) c.

  (** [split_buffer[r][c] = vals[r]] for r = 0, 1, ... *)
  Definition write_col (h : nat) (buf : list T) (c : nat) (vals : list T) : res (list T) :=
    for_each (combine (seq 0 (length vals)) vals) (fun '(r, v) buf => row_set h buf r c v) buf.

  (** The common shape of every apply_twiddles: split into [k] rows of [h], butterfly on column 0,
      then for each column c in 1..h/2+1 read the k values at column c ("fwd") and at column h-c
      ("rev"), compute, and write column c, then column h-c.  [pair tw fwd rev] is the computation in
      between and returns the two columns in row order.  In the source all reads of an iteration
      precede its writes; pure computations between the two groups of writes are moved before them. *)
  Definition columns_apply {A : Type} (k h : nat) (bf : list T -> res (list T)) (tws : list A)
             (pair : A -> list T -> list T -> res (list T * list T)) (output : list T)
    : res (list T) :=
    _ <- rassert (negb (h =? 0)) ;;              (* chunks_exact_mut(0) panics *)
    _ <- rassert (k * h <=? length output) ;;    (* buffer_chunks.next().unwrap(), k times *)
    col0 <- read_col k h output 0 ;;
    col0 <- bf col0 ;;
    output <- write_col h output 0 col0 ;;
    for_each (combine (seq 1 (h / 2)) tws) (fun '(column, tw) output =>
      column_rev <- usub h column ;;
      fwd <- read_col k h output column ;;
      rev <- read_col k h output column_rev ;;
      '(fwd', rev') <- pair tw fwd rev ;;
      output <- write_col h output column fwd' ;;
      write_col h output column_rev rev') output.

  (** perform_dht_inplace: radix2.rs:125-134, radix3.rs:149-158, radix4.rs:155-164,
      radix5.rs:172-181, radix6.rs:188-197 *)
  Definition nxn_inplace (k : nat) (height_dht : Dht T) (height : nat)
             (apply_twiddles : list T -> res (list T)) (buffer scratch : list T)
    : res (list T * list T) :=
    scratch <- transpose_half_rev_out buffer scratch k height ;;
    '(scratch, buffer, _) <- dht_process_oop height_dht scratch buffer [] ;;
    buffer <- apply_twiddles buffer ;;
    Ok (buffer, scratch).

  (** perform_dht_out_of_place: radix2.rs:136-150, radix3.rs:160-174, radix4.rs:166-180,
      radix5.rs:183-197, radix6.rs:199-213 *)
  Definition nxn_oop (k : nat) (height_dht : Dht T) (height : nat)
             (apply_twiddles : list T -> res (list T)) (input output scratch : list T)
    : res (list T * list T * list T) :=
    output <- transpose_half_rev_out input output k height ;;
    '(output, input) <- dht_process_with_scratch height_dht output input ;;
    output <- apply_twiddles output ;;
    Ok (input, output, scratch).

  (** The scratch computation and the Dht impl: radix2.rs:19,36-73, radix3.rs:40-79,176,
      radix4.rs:37-74,182, radix5.rs:22,41-80, radix6.rs:22,42-81 *)
  Definition nxn (k : nat) (height_dht : Dht T) (apply_twiddles : list T -> res (list T)) : Dht T :=
    let height := dht_len height_dht in
    let len := k * height in
    let height_inplace_scratch := dht_inplace_scratch height_dht in
    let outofplace_scratch_len :=
      if len <? height_inplace_scratch then height_inplace_scratch else 0 in
    let inplace_scratch_len :=
      len + (if len <? height_inplace_scratch then height_inplace_scratch else 0) in
    boilerplate_dht len inplace_scratch_len outofplace_scratch_len
      (nxn_inplace k height_dht height apply_twiddles)
      (nxn_oop k height_dht height apply_twiddles).
End Columns.

Section Radix2.
  Context {T : Type} `{Num T}.

  (** radix2.rs:28-33 *)
  Definition radix2_twiddles (height : nat) : list (cplx T) :=
    map (fun column => compute_dft_twiddle_inverse column (2 * height)) (seq 1 (height / 2)).

  (** radix2.rs:107-121 *)
  Definition radix2_pair (twiddle : cplx T) (fwd rev : list T) : res (list T * list T) :=
    match fwd, rev with
    | [fwd0; input_top_fwd], [rev0; input_top_rev] =>
      let fwd1 := re twiddle *! input_top_fwd +! im twiddle *! input_top_rev in
      let rev1 := re twiddle *! input_top_rev -! im twiddle *! input_top_fwd in
      let '(fwd0, fwd1) := bf2_strided fwd0 fwd1 in
      let '(rev0, rev1) := bf2_strided rev0 rev1 in
      Ok ([fwd0; fwd1], [rev1; rev0])
    | _, _ => Panic
    end.

  (** radix2.rs:76-123 apply_twiddles *)
  Definition radix2_apply (height : nat) (twiddles : list (cplx T)) : list T -> res (list T) :=
    columns_apply 2 height bf2_array twiddles radix2_pair.

  (** radix2.rs:22-74 MixedRadix2xn::new *)
  Definition mixed_radix_2xn (height_dht : Dht T) : Dht T :=
    let height := dht_len height_dht in
    nxn 2 height_dht (radix2_apply height (radix2_twiddles height)).
End Radix2.

Section Radix3.
  Context {T : Type} `{Num T}.

  (** radix3.rs:31-37 *)
  Definition radix3_twiddles (height : nat) : list (cplx T) :=
    let len := 3 * height in
    map (fun column =>
           cscale (compute_dft_twiddle_inverse (column * 1 * 8 + len) (len * 8)) nroot_half)
        (seq 1 (height / 2)).

  (** radix3.rs:114-145 *)
  Definition radix3_pair (butterfly3 : cplx T) (twiddle : cplx T) (fwd rev : list T)
    : res (list T * list T) :=
    match fwd, rev with
    | [input0fwd; input1fwd; input2fwd], [input0rev; input1rev; input2rev] =>
      let out1fwd := input1fwd +! input2rev in
      let out1rev := input2fwd +! input1rev in
      let out2fwd := input2fwd -! input1rev in
      let out2rev := input1fwd -! input2rev in
      let tmp_fwd := [
        input0fwd;
        re twiddle *! out1fwd -! im twiddle *! out2fwd;
        re twiddle *! out2fwd +! im twiddle *! out1fwd ] in
      let tmp_rev := [
        input0rev;
        re twiddle *! out1rev -! im twiddle *! out2rev;
        re twiddle *! out2rev +! im twiddle *! out1rev ] in
      tmp_fwd <- bf3_array butterfly3 tmp_fwd ;;
      tmp_rev <- bf3_array butterfly3 tmp_rev ;;
      r2 <- idx tmp_rev 2 ;; r1 <- idx tmp_rev 1 ;; r0 <- idx tmp_rev 0 ;;
      Ok (tmp_fwd, [r2; r1; r0])
    | _, _ => Panic
    end.

  (** radix3.rs:82-147 apply_twiddles *)
  Definition radix3_apply (butterfly3 : cplx T) (height : nat) (twiddles : list (cplx T))
    : list T -> res (list T) :=
    columns_apply 3 height (bf3_array butterfly3) twiddles (radix3_pair butterfly3).

  (** radix3.rs:25-80 MixedRadix3xn::new *)
  Definition mixed_radix_3xn (height_dht : Dht T) : Dht T :=
    let height := dht_len height_dht in
    nxn 3 height_dht (radix3_apply bf3_new height (radix3_twiddles height)).
End Radix3.

Section Radix4xn.
  Context {T : Type} `{Num T}.

  (** radix4.rs:28-34 *)
  Definition radix4xn_twiddles (height : nat) : list (cplx T) :=
    let len := 4 * height in
    flat_map (fun column => [compute_dft_twiddle_inverse (1 * column) len;
                             compute_dft_twiddle_inverse (2 * column) len])
             (seq 1 (height / 2)).

  (** radix4.rs:113-151; the identical text is at radix4.rs:401-439 (in the free function butterfly_4) *)
  Definition radix4_pair (twiddle_chunk : list (cplx T)) (fwd rev : list T)
    : res (list T * list T) :=
    match fwd, rev with
    | [input0fwd; input1fwd; input2fwd; input3fwd], [input0rev; input1rev; input2rev; input3rev] =>
      tw0 <- idx twiddle_chunk 0 ;;
      tw1 <- idx twiddle_chunk 1 ;;
      let out1fwd := input1fwd +! input3rev in
      let out3fwd := input1rev -! input3fwd in
      let out1rev := input3fwd +! input1rev in
      let out3rev := input3rev -! input1fwd in
      let fwd0 := input0fwd in
      let rev0 := input0rev in
      let fwd2 := re tw1 *! input2fwd +! im tw1 *! input2rev in
      let rev2 := re tw1 *! input2rev -! im tw1 *! input2fwd in
      let fwd1 := re tw0 *! out1fwd +! im tw0 *! out3fwd in
      let rev1 := re tw0 *! out1rev +! im tw0 *! out3rev in
      let fwd3 := re tw0 *! out3fwd -! im tw0 *! out1fwd in
      let rev3 := re tw0 *! out3rev -! im tw0 *! out1rev in
      let '(fwd0, fwd2) := bf2_strided fwd0 fwd2 in
      let '(fwd0, fwd1) := bf2_strided fwd0 fwd1 in
      let '(fwd2, fwd3) := bf2_strided fwd2 fwd3 in
      let '(rev0, rev2) := bf2_strided rev0 rev2 in
      let '(rev0, rev1) := bf2_strided rev0 rev1 in
      let '(rev2, rev3) := bf2_strided rev2 rev3 in
      Ok ([fwd0; fwd2; fwd1; fwd3], [rev3; rev1; rev2; rev0])
    | _, _ => Panic
    end.

  (** radix4.rs:77-153 apply_twiddles, and radix4.rs:364-441 butterfly_4 (with num_ffts for height) *)
  Definition radix4_apply (height : nat) (twiddles : list (cplx T)) (output : list T)
    : res (list T) :=
    chunks <- chunks_exact 2 twiddles ;;
    columns_apply 4 height bf4_array chunks radix4_pair output.

  (** radix4.rs:22-75 MixedRadix4xn::new *)
  Definition mixed_radix_4xn (height_dht : Dht T) : Dht T :=
    let height := dht_len height_dht in
    nxn 4 height_dht (radix4_apply height (radix4xn_twiddles height)).
End Radix4xn.

Section Radix5.
  Context {T : Type} `{Num T}.

  (** radix5.rs:31-38 *)
  Definition radix5_twiddles (height : nat) : list (cplx T) :=
    let len := 5 * height in
    flat_map (fun column =>
       [cscale (compute_dft_twiddle_inverse (column * 1 * 8 + len) (len * 8)) nroot_half;
        cscale (compute_dft_twiddle_inverse (column * 2 * 8 + len) (len * 8)) nroot_half])
      (seq 1 (height / 2)).

  (** radix5.rs:121-168 *)
  Definition radix5_pair (butterfly5 : cplx T * cplx T) (twiddle_chunk : list (cplx T))
             (fwd rev : list T) : res (list T * list T) :=
    match fwd, rev with
    | [input0fwd; input1fwd; input2fwd; input3fwd; input4fwd],
      [input0rev; input1rev; input2rev; input3rev; input4rev] =>
      tw0 <- idx twiddle_chunk 0 ;;
      tw1 <- idx twiddle_chunk 1 ;;
      let out1fwd := input1fwd +! input4rev in
      let out1rev := input4fwd +! input1rev in
      let out4fwd := input4fwd -! input1rev in
      let out4rev := input1fwd -! input4rev in
      let out2fwd := input2fwd +! input3rev in
      let out2rev := input3fwd +! input2rev in
      let out3fwd := input3fwd -! input2rev in
      let out3rev := input2fwd -! input3rev in
      let tmp_fwd := [
        input0fwd;
        re tw0 *! out1fwd -! im tw0 *! out4fwd;
        re tw1 *! out2fwd -! im tw1 *! out3fwd;
        re tw1 *! out3fwd +! im tw1 *! out2fwd;
        re tw0 *! out4fwd +! im tw0 *! out1fwd ] in
      let tmp_rev := [
        input0rev;
        re tw0 *! out1rev -! im tw0 *! out4rev;
        re tw1 *! out2rev -! im tw1 *! out3rev;
        re tw1 *! out3rev +! im tw1 *! out2rev;
        re tw0 *! out4rev +! im tw0 *! out1rev ] in
      tmp_fwd <- bf5_array butterfly5 tmp_fwd ;;
      tmp_rev <- bf5_array butterfly5 tmp_rev ;;
      r4 <- idx tmp_rev 4 ;; r3 <- idx tmp_rev 3 ;; r2 <- idx tmp_rev 2 ;;
      r1 <- idx tmp_rev 1 ;; r0 <- idx tmp_rev 0 ;;
      Ok (tmp_fwd, [r4; r3; r2; r1; r0])
    | _, _ => Panic
    end.

  (** radix5.rs:83-170 apply_twiddles *)
  Definition radix5_apply (butterfly5 : cplx T * cplx T) (height : nat) (twiddles : list (cplx T))
             (output : list T) : res (list T) :=
    chunks <- chunks_exact 2 twiddles ;;
    columns_apply 5 height (bf5_array butterfly5) chunks (radix5_pair butterfly5) output.

  (** radix5.rs:25-81 MixedRadix5xn::new *)
  Definition mixed_radix_5xn (height_dht : Dht T) : Dht T :=
    let height := dht_len height_dht in
    nxn 5 height_dht (radix5_apply bf5_new height (radix5_twiddles height)).
End Radix5.

Section Radix6.
  Context {T : Type} `{Num T}.

  (** radix6.rs:31-39 *)
  Definition radix6_twiddles (height : nat) : list (cplx T) :=
    let len := 6 * height in
    flat_map (fun column =>
       [cscale (compute_dft_twiddle_inverse (1 * column * 8 + len) (len * 8)) nroot_half;
        cscale (compute_dft_twiddle_inverse (2 * column * 8 + len) (len * 8)) nroot_half;
        cscale (compute_dft_twiddle_inverse (3 * column * 8 + len) (len * 8)) nroot_half])
      (seq 1 (height / 2)).

  (** radix6.rs:126-183 *)
  Definition radix6_pair (butterfly6 : cplx T) (twiddle_chunk : list (cplx T))
             (fwd rev : list T) : res (list T * list T) :=
    match fwd, rev with
    | [input0_fwd; input1_fwd; input2_fwd; input3_fwd; input4_fwd; input5_fwd],
      [input0_rev; input1_rev; input2_rev; input3_rev; input4_rev; input5_rev] =>
      tw0 <- idx twiddle_chunk 0 ;;
      tw1 <- idx twiddle_chunk 1 ;;
      tw2 <- idx twiddle_chunk 2 ;;
      let out1_fwd := input1_fwd +! input5_rev in
      let out1_rev := input5_fwd +! input1_rev in
      let out5_fwd := input5_fwd -! input1_rev in
      let out5_rev := input1_fwd -! input5_rev in
      let out2_fwd := input2_fwd +! input4_rev in
      let out2_rev := input4_fwd +! input2_rev in
      let out4_fwd := input4_fwd -! input2_rev in
      let out4_rev := input2_fwd -! input4_rev in
      let out3_fwd := input3_fwd -! input3_rev in
      let out3_rev := input3_fwd +! input3_rev in
      let tmp_fwd := [
        input0_fwd;
        re tw0 *! out1_fwd -! im tw0 *! out5_fwd;
        re tw1 *! out2_fwd -! im tw1 *! out4_fwd;
        re tw2 *! out3_fwd +! im tw2 *! out3_rev;
        re tw1 *! out4_fwd +! im tw1 *! out2_fwd;
        re tw0 *! out5_fwd +! im tw0 *! out1_fwd ] in
      let tmp_rev := [
        input0_rev;
        re tw0 *! out1_rev -! im tw0 *! out5_rev;
        re tw1 *! out2_rev -! im tw1 *! out4_rev;
        re tw2 *! out3_rev -! im tw2 *! out3_fwd;
        re tw1 *! out4_rev +! im tw1 *! out2_rev;
        re tw0 *! out5_rev +! im tw0 *! out1_rev ] in
      tmp_fwd <- bf6_array butterfly6 tmp_fwd ;;
      tmp_rev <- bf6_array butterfly6 tmp_rev ;;
      r5 <- idx tmp_rev 5 ;; r4 <- idx tmp_rev 4 ;; r3 <- idx tmp_rev 3 ;;
      r2 <- idx tmp_rev 2 ;; r1 <- idx tmp_rev 1 ;; r0 <- idx tmp_rev 0 ;;
      Ok (tmp_fwd, [r5; r4; r3; r2; r1; r0])
    | _, _ => Panic
    end.

  (** radix6.rs:84-185 apply_twiddles *)
  Definition radix6_apply (butterfly6 : cplx T) (height : nat) (twiddles : list (cplx T))
             (output : list T) : res (list T) :=
    chunks <- chunks_exact 3 twiddles ;;
    columns_apply 6 height (bf6_array butterfly6) chunks (radix6_pair butterfly6) output.

  (** radix6.rs:25-82 MixedRadix6xn::new *)
  Definition mixed_radix_6xn (height_dht : Dht T) : Dht T :=
    let height := dht_len height_dht in
    nxn 6 height_dht (radix6_apply bf3_new height (radix6_twiddles height)).
End Radix6.
