(** * The processing functions with machine arithmetic

    In the other model files the index computations made while data is processed are unbounded.  Here every
    usize [+], [-] and [*] of the processing functions is checked (Debug: overflow panics, Release: it wraps), on top of the
    machine arithmetic of the constructors (New.v).  An index expression that the source writes several times in one
    loop iteration is computed once.  The positions inside [chunks_exact_mut] rows and the trusted [transpose] contract contain no
    usize arithmetic of this crate and are used unchanged. *)
From Verif Require Export New.
From Coq Require Import NArith.

Section Proc.
  Context {W : width} {T : Type} `{Num T}.
  Variables (m : profile) (size : N).

  (** [a - b] on usize *)
  Definition wsub (a b : nat) : res nat :=
    if b <=? a then Ok (a - b)
    else match m with
         | Debug => Panic
         | Release => Ok (N.to_nat (span + N.of_nat a - N.of_nat b))
         end.
  (** [a * b + c] on usize *)
  Definition mul_add (a b c : nat) : res nat := p <- umul m a b ;; uadd m p c.

  (** ** array_utils.rs:146-160 *)
  Definition transpose_half_rev_out_run (input output : list T) (width height : nat) : res (list T) :=
    _ <- rassert (length input =? length output) ;;
    area <- umul m width height ;;
    _ <- rassert (length input =? area) ;;
    reversal_row_begin <- uadd m (width / 2) 1 ;;
    for_range 0 height (fun out_row output =>
      h1 <- wsub height out_row ;;
      out_row_rev <- wsub h1 1 ;;
      output <- for_range 0 reversal_row_begin (fun out_column output =>
          i <- mul_add out_row width out_column ;;
          v <- uidx input i ;;
          o <- mul_add out_column height out_row ;;
          uset output o v) output ;;
      for_range reversal_row_begin width (fun out_column output =>
          i <- mul_add out_row width out_column ;;
          v <- uidx input i ;;
          o <- mul_add out_column height out_row_rev ;;
          uset output o v) output) output.

  (** ** dht_naive.rs:36-58 *)
  Definition naive_perform_run (twiddles : list T) (input output : list T) : res (list T) :=
    for_range 0 (length output) (fun k output =>
      '(output_value, _) <- for_each input (fun input_cell '(output_value, twiddle_index) =>
          twiddle <- idx twiddles twiddle_index ;;
          let output_value := output_value +! twiddle *! input_cell in
          twiddle_index <- uadd m twiddle_index k ;;
          twiddle_index <- (if length twiddles <=? twiddle_index
                            then wsub twiddle_index (length twiddles)
                            else Ok twiddle_index) ;;
          Ok (output_value, twiddle_index)) (nzero, 0) ;;
      set output k output_value) output.
  Definition naive_run (len : nat) : res (Dht T) :=
    _ <- alloc size len ;;
    let twiddles := naive_twiddles len in
    Ok (boilerplate_dht_oop (length twiddles) (naive_perform_run twiddles)).

  (** ** mixed_radix.rs:142-159 *)
  Definition mixed_cell_run (height row row_rev : nat) (column : nat) (twiddle : cplx T)
             (buffer : list T) : res (list T) :=
    column_rev <- wsub height column ;;
    top_fwd <- mul_add height row column ;;
    input_top_fwd <- idx buffer top_fwd ;;
    top_rev <- mul_add height row column_rev ;;
    input_top_rev <- idx buffer top_rev ;;
    bot_fwd <- mul_add height row_rev column ;;
    input_bot_fwd <- idx buffer bot_fwd ;;
    bot_rev <- mul_add height row_rev column_rev ;;
    input_bot_rev <- idx buffer bot_rev ;;
    let out_top_fwd := input_top_fwd +! input_bot_rev in
    let out_top_rev := input_bot_fwd +! input_top_rev in
    let out_bot_fwd := input_bot_fwd -! input_top_rev in
    let out_bot_rev := input_top_fwd -! input_bot_rev in
    buffer <- set buffer top_fwd (re twiddle *! out_top_fwd -! im twiddle *! out_bot_fwd) ;;
    buffer <- set buffer top_rev (re twiddle *! out_top_rev -! im twiddle *! out_bot_rev) ;;
    buffer <- set buffer bot_fwd (re twiddle *! out_bot_fwd +! im twiddle *! out_top_fwd) ;;
    set buffer bot_rev (re twiddle *! out_bot_rev +! im twiddle *! out_top_rev).
  (** mixed_radix.rs:165-176 *)
  Definition mixed_cell_mid_run (height row : nat) (column : nat) (twiddle : cplx T)
             (buffer : list T) : res (list T) :=
    column_rev <- wsub height column ;;
    top_fwd <- mul_add height row column ;;
    input_top_fwd <- idx buffer top_fwd ;;
    top_rev <- mul_add height row column_rev ;;
    input_top_rev <- idx buffer top_rev ;;
    let out_top_fwd := input_top_fwd -! input_top_rev in
    let out_bot_fwd := input_top_fwd +! input_top_rev in
    buffer <- set buffer top_fwd (re twiddle *! out_top_fwd +! im twiddle *! out_bot_fwd) ;;
    set buffer top_rev (re twiddle *! out_bot_fwd -! im twiddle *! out_top_fwd).
  (** mixed_radix.rs:115-178 *)
  Definition mixed_apply_twiddles_run (width height : nat) (twiddles : list (cplx T)) (buffer : list T)
    : res (list T) :=
    width1 <- uadd m width 1 ;;
    let row_limit := width1 / 2 in
    column_limit <- uadd m (height / 2) 1 ;;
    twiddle_stride <- wsub column_limit 1 ;;
    if (width <? 2) || (height <? 2) then Ok buffer else
    chunks <- chunks_exact twiddle_stride twiddles ;;
    buffer <- for_each (combine (seq 1 (row_limit - 1)) chunks) (fun '(row, twiddle_chunk) buffer =>
        row_rev <- wsub width row ;;
        for_each (combine (seq 1 (column_limit - 1)) twiddle_chunk) (fun '(column, twiddle) buffer =>
          mixed_cell_run height row row_rev column twiddle buffer) buffer) buffer ;;
    if width mod 2 =? 0 then
      let row := width / 2 in
      main_twiddle_chunk <- idx chunks (row_limit - 1) ;;
      for_each (combine (seq 1 (column_limit - 1)) main_twiddle_chunk) (fun '(column, twiddle) buffer =>
        mixed_cell_mid_run height row column twiddle buffer) buffer
    else Ok buffer.
  (** mixed_radix.rs:194 and :243 *)
  Definition reversal_row_begin_run (width : nat) : res nat :=
    if width mod 2 =? 0 then uadd m (width / 2) 1
    else (width1 <- uadd m width 1 ;; Ok (width1 / 2)).
  (** mixed_radix.rs:180-222; [self.len()] is the stored length [len] *)
  Definition mixed_inplace_run (width_dht height_dht : Dht T) (len width height : nat)
             (twiddles : list (cplx T)) (buffer scratch : list T) : res (list T * list T) :=
    '(scratch, inner_scratch) <- split_at scratch len ;;
    scratch <- transpose buffer scratch width height ;;
    reversal_row_begin <- reversal_row_begin_run width ;;
    from <- umul m reversal_row_begin height ;;
    scratch <- reverse_second_half scratch from height ;;
    '(scratch, buffer, inner_scratch) <-
       (if length buffer <? length inner_scratch then
          '(s, i) <- dht_process_with_scratch height_dht scratch inner_scratch ;; Ok (s, buffer, i)
        else
          '(s, b) <- dht_process_with_scratch height_dht scratch buffer ;; Ok (s, b, inner_scratch)) ;;
    scratch <- mixed_apply_twiddles_run width height twiddles scratch ;;
    buffer <- transpose scratch buffer height width ;;
    '(buffer, scratch, inner_scratch) <- dht_process_oop width_dht buffer scratch inner_scratch ;;
    height1 <- uadd m height 1 ;;
    from <- umul m (height1 / 2) width ;;
    scratch <- reverse_second_half scratch from width ;;
    buffer <- transpose scratch buffer width height ;;
    Ok (buffer, scratch ++ inner_scratch).
  (** mixed_radix.rs:224-275 *)
  Definition mixed_oop_run (width_dht height_dht : Dht T) (width height : nat)
             (twiddles : list (cplx T)) (input output scratch : list T)
    : res (list T * list T * list T) :=
    output <- transpose input output width height ;;
    reversal_row_begin <- reversal_row_begin_run width ;;
    from <- umul m reversal_row_begin height ;;
    output <- reverse_second_half output from height ;;
    '(output, input, scratch) <-
       (if length input <? length scratch then
          '(o, s) <- dht_process_with_scratch height_dht output scratch ;; Ok (o, input, s)
        else
          '(o, i) <- dht_process_with_scratch height_dht output input ;; Ok (o, i, scratch)) ;;
    output <- mixed_apply_twiddles_run width height twiddles output ;;
    input <- transpose output input height width ;;
    '(input, output, scratch) <-
       (if length output <? length scratch then
          '(i, s) <- dht_process_with_scratch width_dht input scratch ;; Ok (i, output, s)
        else
          '(i, o) <- dht_process_with_scratch width_dht input output ;; Ok (i, o, scratch)) ;;
    height1 <- uadd m height 1 ;;
    from <- umul m (height1 / 2) width ;;
    input <- reverse_second_half input from width ;;
    output <- transpose input output width height ;;
    Ok (input, output, scratch).
  (** mixed_radix.rs:45-113 (the body is that of [mixed_new]) *)
  Definition mixed_run (width_dht height_dht : Dht T) : res (Dht T) :=
    let width := dht_len width_dht in
    let height := dht_len height_dht in
    len <- umul m width height ;;
    row_limit <- uadd m (width / 2) 1 ;;
    column_limit <- uadd m (height / 2) 1 ;;
    capacity <- umul m row_limit column_limit ;;
    _ <- alloc (2 * size) capacity ;;
    _ <- alloc (2 * size) ((row_limit - 1) * (column_limit - 1)) ;;
    twiddles <- push_lists (fun row =>
        push_all (fun column => a <- umul m row column ;; eighth_turn m a len) (seq 1 (column_limit - 1)))
      (seq 1 (row_limit - 1)) ;;
    let height_inplace_scratch := dht_inplace_scratch height_dht in
    let width_inplace_scratch := dht_inplace_scratch width_dht in
    let width_outofplace_scratch := dht_oop_scratch width_dht in
    let max_inner_inplace_scratch := Nat.max height_inplace_scratch width_inplace_scratch in
    let outofplace_scratch_len :=
      if len <? max_inner_inplace_scratch then max_inner_inplace_scratch else 0 in
    inplace_scratch_len <- uadd m len
      (Nat.max (if len <? height_inplace_scratch then height_inplace_scratch else 0) width_outofplace_scratch) ;;
    Ok (boilerplate_dht len inplace_scratch_len outofplace_scratch_len
          (mixed_inplace_run width_dht height_dht len width height twiddles)
          (mixed_oop_run width_dht height_dht width height twiddles)).

  (** ** The common shape of apply_twiddles (see [columns_apply], Nxn.v): [h/2 + 1] and [h - column] *)
  Definition columns_apply_run {A : Type} (k h : nat) (bf : list T -> res (list T)) (tws : list A)
             (pair : A -> list T -> list T -> res (list T * list T)) (output : list T)
    : res (list T) :=
    _ <- rassert (negb (h =? 0)) ;;
    _ <- rassert (k * h <=? length output) ;;    (* the k chunks of length h exist: no arithmetic in the source *)
    col0 <- read_col k h output 0 ;;
    col0 <- bf col0 ;;
    output <- write_col h output 0 col0 ;;
    column_limit <- uadd m (h / 2) 1 ;;
    for_each (combine (seq 1 (column_limit - 1)) tws) (fun '(column, tw) output =>
      column_rev <- wsub h column ;;
      fwd <- read_col k h output column ;;
      rev <- read_col k h output column_rev ;;
      '(fwd', rev') <- pair tw fwd rev ;;
      output <- write_col h output column fwd' ;;
      write_col h output column_rev rev') output.
  (** radix2.rs:76-123, radix3.rs:82-147, radix4.rs:77-153 and :364-441, radix5.rs:83-170, radix6.rs:84-185 *)
  Definition radix2_apply_run (height : nat) (twiddles : list (cplx T)) : list T -> res (list T) :=
    columns_apply_run 2 height bf2_array twiddles radix2_pair.
  Definition radix3_apply_run (butterfly3 : cplx T) (height : nat) (twiddles : list (cplx T))
    : list T -> res (list T) :=
    columns_apply_run 3 height (bf3_array butterfly3) twiddles (radix3_pair butterfly3).
  Definition radix4_apply_run (height : nat) (twiddles : list (cplx T)) (output : list T)
    : res (list T) :=
    chunks <- chunks_exact 2 twiddles ;;
    columns_apply_run 4 height bf4_array chunks radix4_pair output.
  Definition radix5_apply_run (butterfly5 : cplx T * cplx T) (height : nat) (twiddles : list (cplx T))
             (output : list T) : res (list T) :=
    chunks <- chunks_exact 2 twiddles ;;
    columns_apply_run 5 height (bf5_array butterfly5) chunks (radix5_pair butterfly5) output.
  Definition radix6_apply_run (butterfly6 : cplx T) (height : nat) (twiddles : list (cplx T))
             (output : list T) : res (list T) :=
    chunks <- chunks_exact 3 twiddles ;;
    columns_apply_run 6 height (bf6_array butterfly6) chunks (radix6_pair butterfly6) output.

  (** perform_dht_inplace: radix2.rs:125-134, radix3.rs:149-158, radix4.rs:155-164,
      radix5.rs:172-181, radix6.rs:188-197 *)
  Definition nxn_inplace_run (k : nat) (height_dht : Dht T) (height : nat)
             (apply_twiddles : list T -> res (list T)) (buffer scratch : list T)
    : res (list T * list T) :=
    scratch <- transpose_half_rev_out_run buffer scratch k height ;;
    '(scratch, buffer, _) <- dht_process_oop height_dht scratch buffer [] ;;
    buffer <- apply_twiddles buffer ;;
    Ok (buffer, scratch).
  (** perform_dht_out_of_place: radix2.rs:136-150, radix3.rs:160-174, radix4.rs:166-180,
      radix5.rs:183-197, radix6.rs:199-213 *)
  Definition nxn_oop_run (k : nat) (height_dht : Dht T) (height : nat)
             (apply_twiddles : list T -> res (list T)) (input output scratch : list T)
    : res (list T * list T * list T) :=
    output <- transpose_half_rev_out_run input output k height ;;
    '(output, input) <- dht_process_with_scratch height_dht output input ;;
    output <- apply_twiddles output ;;
    Ok (input, output, scratch).
  (** the constructors (the body is that of [nxn_new]) *)
  Definition nxn_run (k : nat) (capacity : nat -> res nat) (table : nat -> nat -> res (list (cplx T)))
             (apply : nat -> list (cplx T) -> list T -> res (list T)) (height_dht : Dht T) : res (Dht T) :=
    let height := dht_len height_dht in
    len <- umul m k height ;;
    capacity <- capacity (height / 2) ;;
    _ <- alloc (2 * size) capacity ;;
    _ <- alloc (2 * size) (height / 2) ;;
    twiddles <- table (height / 2) len ;;
    let height_inplace_scratch := dht_inplace_scratch height_dht in
    let outofplace_scratch_len := if len <? height_inplace_scratch then height_inplace_scratch else 0 in
    inplace_scratch_len <- uadd m len (if len <? height_inplace_scratch then height_inplace_scratch else 0) ;;
    Ok (boilerplate_dht len inplace_scratch_len outofplace_scratch_len
          (nxn_inplace_run k height_dht height (apply height twiddles))
          (nxn_oop_run k height_dht height (apply height twiddles))).
  (** radix2.rs:22-74 *)
  Definition radix2_run : Dht T -> res (Dht T) :=
    nxn_run 2 (fun half => Ok half)
      (fun half len => push_all (fun column => Ok (compute_dft_twiddle_inverse column len)) (seq 1 half))
      radix2_apply_run.
  (** radix3.rs:25-80 *)
  Definition radix3_run : Dht T -> res (Dht T) :=
    nxn_run 3 (fun half => umul m half 2)
      (fun half len => push_all (fun column => a <- umul m column 1 ;; eighth_turn m a len) (seq 1 half))
      (radix3_apply_run bf3_new).
  (** radix4.rs:22-75 *)
  Definition radix4xn_run : Dht T -> res (Dht T) :=
    nxn_run 4 (fun half => limit <- uadd m half 1 ;; umul m limit 2)
      (fun half len => push_lists (fun column =>
           a <- umul m 1 column ;; b <- umul m 2 column ;;
           Ok [compute_dft_twiddle_inverse a len; compute_dft_twiddle_inverse b len]) (seq 1 half))
      radix4_apply_run.
  (** radix5.rs:25-81 *)
  Definition radix5_run : Dht T -> res (Dht T) :=
    nxn_run 5 (fun half => umul m half 2)
      (fun half len => push_lists (fun column =>
           a <- umul m column 1 ;; v <- eighth_turn m a len ;;
           b <- umul m column 2 ;; w <- eighth_turn m b len ;;
           Ok [v; w]) (seq 1 half))
      (radix5_apply_run bf5_new).
  (** radix6.rs:25-82 *)
  Definition radix6_run : Dht T -> res (Dht T) :=
    nxn_run 6 (fun half => umul m 3 half)
      (fun half len => push_lists (fun column =>
           a <- umul m 1 column ;; v <- eighth_turn m a len ;;
           b <- umul m 2 column ;; w <- eighth_turn m b len ;;
           c <- umul m 3 column ;; x <- eighth_turn m c len ;;
           Ok [v; w; x]) (seq 1 half))
      (radix6_apply_run bf3_new).

  (** ** split_radix.rs:73-112 *)
  Definition split_cell_run (quarter_len : nat) (twiddles : list (cplx T)) (i : nat)
             (st : list T * list T * list T * list T)
    : res (list T * list T * list T * list T) :=
    let '(half0, half1, quarter1, quarter3) := st in
    i2 <- umul m 2 i ;;
    twiddle1_fwd <- uidx twiddles i2 ;;
    i2 <- mul_add 2 i 1 ;;
    twiddle3_fwd <- uidx twiddles i2 ;;
    i_rev <- wsub quarter_len i ;;
    input_fwd0 <- uidx half0 i ;; input_fwd1 <- uidx half1 i ;;
    input_fwd2 <- uidx quarter1 i ;; input_fwd3 <- uidx quarter3 i ;;
    input_rev0 <- uidx half0 i_rev ;; input_rev1 <- uidx half1 i_rev ;;
    input_rev2 <- uidx quarter1 i_rev ;; input_rev3 <- uidx quarter3 i_rev ;;
    let diff0_fwd := input_fwd0 -! input_fwd2 in
    let diff0_rev := input_rev0 -! input_rev2 in
    let diff1_fwd := input_fwd1 -! input_fwd3 in
    let diff1_rev := input_rev1 -! input_rev3 in
    let diff0_sum := diff0_fwd +! diff0_rev in
    let diff0_dif := diff0_fwd -! diff0_rev in
    let diff1_sum := diff1_fwd +! diff1_rev in
    let diff1_dif := diff1_fwd -! diff1_rev in
    half0 <- uset half0 i (input_fwd0 +! input_fwd2) ;;
    half1 <- uset half1 i (input_fwd1 +! input_fwd3) ;;
    half0 <- uset half0 i_rev (input_rev0 +! input_rev2) ;;
    half1 <- uset half1 i_rev (input_rev1 +! input_rev3) ;;
    quarter1 <- uset quarter1 i (diff0_sum *! re twiddle1_fwd -! diff1_dif *! im twiddle1_fwd) ;;
    quarter3 <- uset quarter3 i (diff0_dif *! re twiddle3_fwd +! diff1_sum *! im twiddle3_fwd) ;;
    quarter1 <- uset quarter1 i_rev (diff0_sum *! im twiddle1_fwd +! diff1_dif *! re twiddle1_fwd) ;;
    quarter3 <- uset quarter3 i_rev (diff0_dif *! im twiddle3_fwd -! diff1_sum *! re twiddle3_fwd) ;;
    Ok (half0, half1, quarter1, quarter3).
  (** split_radix.rs:48-113 *)
  Definition split_apply_twiddles_run (len : nat) (twiddles : list (cplx T)) (buffer : list T)
    : res (list T) :=
    let half_len := len / 2 in
    let quarter_len := len / 4 in
    let eigth_len := len / 8 in
    '(buffer_evens, buffer_odds) <- split_at buffer half_len ;;
    '(half0, half1) <- split_at buffer_evens quarter_len ;;
    '(quarter1, quarter3) <- split_at buffer_odds quarter_len ;;
    q0 <- idx half0 0 ;; q1 <- idx half1 0 ;; q2 <- idx quarter1 0 ;; q3 <- idx quarter3 0 ;;
    let diff0_fwd := q0 -! q2 in
    let diff0_rev := q1 -! q3 in
    half0 <- set half0 0 (q0 +! q2) ;;
    half1 <- set half1 0 (q1 +! q3) ;;
    quarter1 <- set quarter1 0 (diff0_fwd +! diff0_rev) ;;
    quarter3 <- set quarter3 0 (diff0_fwd -! diff0_rev) ;;
    limit <- uadd m eigth_len 1 ;;
    '(half0, half1, quarter1, quarter3) <-
      for_range 1 limit (split_cell_run quarter_len twiddles)
                (half0, half1, quarter1, quarter3) ;;
    Ok ((half0 ++ half1) ++ (quarter1 ++ quarter3)).
  (** split_radix.rs:115-134 *)
  Definition split_inplace_run (quarter_dht half_dht : Dht T) (len : nat) (twiddles : list (cplx T))
             (buffer scratch : list T) : res (list T * list T) :=
    buffer <- split_apply_twiddles_run len twiddles buffer ;;
    let half_len := len / 2 in
    let quarter_len := len / 4 in
    '(buffer_evens, buffer_odds) <- split_at buffer half_len ;;
    '(buffer_evens, scratch) <- dht_process_with_scratch half_dht buffer_evens scratch ;;
    '(buffer_odds, scratch, _) <- dht_process_oop quarter_dht buffer_odds scratch [] ;;
    let buffer := buffer_evens ++ buffer_odds in
    '(scratch_quarter1, scratch_quarter3) <- split_at scratch quarter_len ;;
    buffer <- for_each (rev (seq 0 quarter_len)) (fun i buffer =>
        s <- umul m i 2 ;; v <- uidx buffer s ;; d <- mul_add 4 i 0 ;; buffer <- uset buffer d v ;;
        s <- mul_add i 2 1 ;; v <- uidx buffer s ;; d <- mul_add 4 i 2 ;; buffer <- uset buffer d v ;;
        v <- uidx scratch_quarter1 i ;; d <- mul_add 4 i 1 ;; buffer <- uset buffer d v ;;
        v <- uidx scratch_quarter3 i ;; d <- mul_add 4 i 3 ;; uset buffer d v) buffer ;;
    Ok (buffer, scratch_quarter1 ++ scratch_quarter3).
  (** split_radix.rs:136-160; the positions [4 * i + j] stand for cell [j] of chunk [i] of [chunks_exact_mut(4)] *)
  Definition split_oop_run (quarter_dht half_dht : Dht T) (len : nat) (twiddles : list (cplx T))
             (input output scratch : list T) : res (list T * list T * list T) :=
    input <- split_apply_twiddles_run len twiddles input ;;
    let half_len := len / 2 in
    let quarter_len := len / 4 in
    '(buffer_evens, buffer_odds) <- split_at input half_len ;;
    '(buffer_evens, output) <- dht_process_with_scratch half_dht buffer_evens output ;;
    '(buffer_odds, output) <- dht_process_with_scratch quarter_dht buffer_odds output ;;
    '(buffer_quarter1, buffer_quarter3) <- split_at buffer_odds quarter_len ;;
    output <- for_range 0 (length output / 4) (fun i output =>
        s <- umul m i 2 ;; v <- uidx buffer_evens s ;; output <- uset output (4 * i + 0) v ;;
        v <- uidx buffer_quarter1 i ;; output <- uset output (4 * i + 1) v ;;
        s <- mul_add i 2 1 ;; v <- uidx buffer_evens s ;; output <- uset output (4 * i + 2) v ;;
        v <- uidx buffer_quarter3 i ;; uset output (4 * i + 3) v) output ;;
    Ok (buffer_evens ++ (buffer_quarter1 ++ buffer_quarter3), output, scratch).
  (** split_radix.rs:21-46 *)
  Definition split_run (quarter_dht half_dht : Dht T) : res (Dht T) :=
    let quarter_len := dht_len quarter_dht in
    let half_len := dht_len half_dht in
    double <- umul m quarter_len 2 ;;
    _ <- rassert (half_len =? double) ;;
    len <- umul m quarter_len 4 ;;
    twiddle_limit <- uadd m (len / 8) 1 ;;
    capacity <- umul m twiddle_limit 2 ;;
    _ <- alloc (2 * size) capacity ;;
    twiddles <- push_lists (fun x =>
        a <- umul m x 1 ;; b <- umul m x 3 ;;
        Ok [compute_dft_twiddle_inverse a len; compute_dft_twiddle_inverse b len]) (seq 0 twiddle_limit) ;;
    Ok (boilerplate_dht len half_len 0
          (split_inplace_run quarter_dht half_dht len twiddles)
          (split_oop_run quarter_dht half_dht len twiddles)).

  (** ** radix4.rs:291-362 *)
  Fixpoint prepare_radix4_run (fuel : nat) (reversed : bool) (size base_len : nat)
           (input output : list T) (stride : nat) : res (list T) :=
    match fuel with
    | 0 => Hang
    | S f =>
      if size =? base_len then
        for_range 0 size (fun i output =>
          j <- (if reversed then s <- wsub size i ;; wsub s 1 else Ok i) ;;
          p <- umul m j stride ;;
          v <- uidx input p ;;
          uset output i v) output
      else
        for_range 0 4 (fun i output =>
          from <- umul m i stride ;;
          '(_, sub_input) <- split_at input from ;;
          from <- umul m i (size / 4) ;;
          on_tail output from (fun sub_output =>
            stride4 <- umul m stride 4 ;;
            prepare_radix4_run f (if reversed then negb (i =? 0) else i =? 3)
                               (size / 4) base_len sub_input sub_output stride4)) output
    end.
  (** radix4.rs:268-286 *)
  Fixpoint radix4_cross_run (fuel len current_size : nat) (layer_twiddles : list (cplx T))
           (output : list T) : res (list T) :=
    match fuel with
    | 0 => Hang
    | S f =>
      if current_size <=? len then
        let num_rows := len / current_size in
        output <- for_range 0 num_rows (fun i output =>
          from <- umul m i current_size ;;
          on_tail output from (fun data =>
            radix4_apply_run (current_size / 4) layer_twiddles data)) output ;;
        double <- umul m current_size 2 ;;
        twiddle_offset <- wsub (double / 4) 2 ;;
        '(_, layer_twiddles) <- split_at layer_twiddles twiddle_offset ;;
        next <- umul m current_size 4 ;;
        radix4_cross_run f len next layer_twiddles output
      else Ok output
    end.
  (** radix4.rs:252-287 *)
  Definition radix4_oop_run (len base_len : nat) (base_dht : Dht T) (twiddles : list (cplx T))
             (input output scratch : list T) : res (list T * list T * list T) :=
    output <- prepare_radix4_run (S len) false len base_len input output 1 ;;
    '(output, _) <- dht_process_with_scratch base_dht output [] ;;
    current_size <- umul m base_len 4 ;;
    output <- radix4_cross_run (S len) len current_size twiddles output ;;
    Ok (input, output, scratch).
  (** radix4.rs:247-250 *)
  Definition radix4_inplace_run (len base_len : nat) (base_dht : Dht T) (twiddles : list (cplx T))
             (buffer scratch : list T) : res (list T * list T) :=
    scratch <- copy_from_slice scratch buffer ;;
    '(scratch, buffer, _) <- radix4_oop_run len base_len base_dht twiddles scratch buffer [] ;;
    Ok (buffer, scratch).
  (** radix4.rs:196-245 *)
  Definition radix4_run (len : nat) : res (Dht T) :=
    _ <- rassert (is_power_of_two len) ;;
    let '(base_len, base_dht) := radix4_base len in
    block <- umul m base_len 4 ;;
    _ <- alloc (2 * size) len ;;
    twiddles <- radix4_table_go m (S len) len (len / block) ;;
    Ok (boilerplate_dht len len 0
          (radix4_inplace_run len base_len base_dht twiddles)
          (radix4_oop_run len base_len base_dht twiddles)).

  (** ** i64 arithmetic, for the inverse of the primitive root *)
  (** the value of an i64 with the bits of [v]: the casts [as i64] *)
  Definition to_i64 (v : Z) : Z := ((v + 9223372036854775808) mod 18446744073709551616 - 9223372036854775808)%Z.
  Definition i64 (v : Z) : res Z :=
    if ((-9223372036854775808 <=? v) && (v <? 9223372036854775808))%Z then Ok v
    else match m with Debug => Panic | Release => Ok (to_i64 v) end.
  (** the closure [f] of num-integer's extended_gcd: (a.0, a.1) becomes (a.1 - q * a.0, a.0) *)
  Definition euclid_step (q : Z) (a : Z * Z) : res (Z * Z) :=
    let '(a0, a1) := a in p <- i64 (q * a0) ;; d <- i64 (a1 - p) ;; Ok (d, a0).
  (** Dependency (crate num-integer, not in /repo): the loop of [extended_gcd] on i64, with all three pairs *)
  Fixpoint euclid_go (fuel : nat) (s t r : Z * Z) : res (Z * Z * Z) :=
    match fuel with
    | 0 => Hang
    | S f =>
      if (fst r =? 0)%Z then
        if (0 <=? snd r)%Z then Ok (snd r, snd s, snd t)
        else g <- i64 (0 - snd r) ;; x <- i64 (0 - snd s) ;; y <- i64 (0 - snd t) ;; Ok (g, x, y)
      else
        let q := (snd r ÷ fst r)%Z in
        _ <- rassert (negb (q =? 9223372036854775808)%Z) ;;        (* i64::MIN / -1 panics in both profiles *)
        r <- euclid_step q r ;; s <- euclid_step q s ;; t <- euclid_step q t ;;
        euclid_go f s t r
    end.
  Definition extended_gcd_run (a b : Z) : res (Z * Z * Z) := euclid_go 200 (0, 1)%Z (1, 0)%Z (b, a).
  (** raders_algorithm.rs:36-47; the casts [as usize] keep the low bits *)
  Definition raders_roots_run (len : nat) : res (nat * nat) :=
    ro <- primitive_root m (N.of_nat len) ;;
    root <- (match ro with Some r => Ok (r mod span)%N | None => Panic end) ;;
    '(_, x, _) <- extended_gcd_run (to_i64 (Z.of_N root)) (to_i64 (Z.of_nat len)) ;;
    root_inv <- (if (0 <=? x)%Z then Ok x else i64 (x + to_i64 (Z.of_nat len))%Z) ;;
    Ok (N.to_nat root, Z.to_nat (root_inv mod Z.of_N span)).

  (** ** raders_algorithm.rs:63-75 *)
  Definition raders_twiddles_run (inner_dht_input : list T) : res (list (cplx T)) :=
    let n := length inner_dht_input in
    let twiddles := repeat (Cplx nzero nzero) (n / 2 + 1) in    (* the length is checked in [raders_run] *)
    a0 <- idx inner_dht_input 0 ;;
    twiddles <- set twiddles 0 (Cplx a0 nzero) ;;
    twiddles <- for_range 1 (n / 2) (fun i twiddles =>
        i_rev <- wsub n i ;;
        a <- idx inner_dht_input i ;;
        b <- idx inner_dht_input i_rev ;;
        set twiddles i (Cplx ((a +! b) *! nhalf) ((a -! b) *! nhalf))) twiddles ;;
    am <- idx inner_dht_input (n / 2) ;;
    set twiddles (n / 2) (Cplx am nzero).
  (** raders_algorithm.rs:100-159 *)
  Definition raders_inplace_run (inner_dht : Dht T) (len root root_inv : nat)
             (twiddles : list (cplx T)) (buffer scratch : list T) : res (list T * list T) :=
    match buffer with
    | [] => Panic
    | buffer_first :: buffer =>
      let buffer_first_val := buffer_first in
      n <- wsub len 1 ;;
      '(inner, extra_scratch) <- split_at scratch n ;;
      '(inner, _) <- for_range 0 (length inner) (fun j '(inner, input_index) =>
          k <- wsub input_index 1 ;;
          buffer_element <- idx buffer k ;;
          inner <- set inner j buffer_element ;;
          input_index <- index_step m input_index root len ;;
          Ok (inner, input_index)) (inner, 1) ;;
      let run := fun (inner buffer extra_scratch : list T) =>
        if 0 <? length extra_scratch then
          '(i, e) <- dht_process_with_scratch inner_dht inner extra_scratch ;; Ok (i, buffer, e)
        else
          '(i, b) <- dht_process_with_scratch inner_dht inner buffer ;; Ok (i, b, extra_scratch) in
      '(inner, buffer, extra_scratch) <- run inner buffer extra_scratch ;;
      v0 <- idx inner 0 ;;
      let buffer_first := buffer_first +! v0 in
      t0 <- idx twiddles 0 ;;
      inner <- set inner 0 (v0 *! re t0) ;;
      let n := length inner in
      inner <- for_range 1 (n / 2) (fun i inner =>
          i_rev <- wsub n i ;;
          input_fwd <- idx inner i ;;
          input_rev <- idx inner i_rev ;;
          twiddle <- idx twiddles i ;;
          inner <- set inner i (re twiddle *! input_fwd +! im twiddle *! input_rev) ;;
          set inner i_rev (re twiddle *! input_rev -! im twiddle *! input_fwd)) inner ;;
      inner <- (if n mod 2 =? 0 then
                  let mid_index := n / 2 in
                  v <- idx inner mid_index ;;
                  t <- idx twiddles mid_index ;;
                  set inner mid_index (v *! re t)
                else Ok inner) ;;
      v0 <- idx inner 0 ;;
      inner <- set inner 0 (v0 +! buffer_first_val) ;;
      '(inner, buffer, extra_scratch) <- run inner buffer extra_scratch ;;
      '(buffer, _) <- for_each inner (fun input_cell '(buffer, output_index) =>
          k <- wsub output_index 1 ;;
          buffer <- set buffer k input_cell ;;
          output_index <- index_step m output_index root_inv len ;;
          Ok (buffer, output_index)) (buffer, 1) ;;
      Ok (buffer_first :: buffer, inner ++ extra_scratch)
    end.
  (** raders_algorithm.rs:161-227 *)
  Definition raders_oop_run (inner_dht : Dht T) (len root root_inv : nat)
             (twiddles : list (cplx T)) (input output scratch : list T)
    : res (list T * list T * list T) :=
    match output, input with
    | output_first :: output, input_first :: input =>
      '(output, _) <- for_range 0 (length output) (fun j '(output, input_index) =>
          k <- wsub input_index 1 ;;
          input_element <- idx input k ;;
          output <- set output j input_element ;;
          input_index <- index_step m input_index root len ;;
          Ok (output, input_index)) (output, 1) ;;
      '(output, input, scratch) <-
        (if 0 <? length scratch then
           '(o, s) <- dht_process_with_scratch inner_dht output scratch ;; Ok (o, input, s)
         else
           '(o, i) <- dht_process_with_scratch inner_dht output input ;; Ok (o, i, scratch)) ;;
      v0 <- idx output 0 ;;
      let output_first := input_first +! v0 in
      t0 <- idx twiddles 0 ;;
      input <- set input 0 (v0 *! re t0) ;;
      input <- for_range 1 (length output / 2) (fun i input =>
          i_rev <- wsub (length output) i ;;
          input_fwd <- idx output i ;;
          input_rev <- idx output i_rev ;;
          twiddle <- idx twiddles i ;;
          input <- set input i (re twiddle *! input_fwd +! im twiddle *! input_rev) ;;
          set input i_rev (re twiddle *! input_rev -! im twiddle *! input_fwd)) input ;;
      input <- (if length input mod 2 =? 0 then
                  let mid_index := length input / 2 in
                  v <- idx output mid_index ;;
                  t <- idx twiddles mid_index ;;
                  set input mid_index (v *! re t)
                else Ok input) ;;
      v0 <- idx input 0 ;;
      input <- set input 0 (v0 +! input_first) ;;
      '(input, output, scratch) <-
        (if 0 <? length scratch then
           '(i, s) <- dht_process_with_scratch inner_dht input scratch ;; Ok (i, output, s)
         else
           '(i, o) <- dht_process_with_scratch inner_dht input output ;; Ok (i, o, scratch)) ;;
      '(output, _) <- for_each input (fun input_element '(output, output_index) =>
          k <- wsub output_index 1 ;;
          output <- set output k input_element ;;
          output_index <- index_step m output_index root_inv len ;;
          Ok (output, output_index)) (output, 1) ;;
      Ok (input_first :: input, output_first :: output, scratch)
    | _, _ => Panic
    end.
  (** raders_algorithm.rs:29-98 *)
  Definition raders_run (inner_dht : Dht T) : res (Dht T) :=
    let inner_dht_len := dht_len inner_dht in
    len <- uadd m inner_dht_len 1 ;;
    _ <- rassert (miller_rabin (N.of_nat len)) ;;
    '(root, root_inv) <- raders_roots_run len ;;
    _ <- alloc size inner_dht_len ;;
    inner_dht_input <- raders_inner_input m len root_inv ;;
    _ <- alloc size (dht_inplace_scratch inner_dht) ;;
    inner_dht_input <- dht_process inner_dht inner_dht_input ;;
    twiddle_len <- uadd m (length inner_dht_input / 2) 1 ;;
    _ <- alloc (2 * size) twiddle_len ;;
    twiddles <- raders_twiddles_run inner_dht_input ;;
    let required_inner_scratch := dht_inplace_scratch inner_dht in
    let extra_inner_scratch :=
      if required_inner_scratch <=? inner_dht_len then 0 else required_inner_scratch in
    inplace_scratch_len <- uadd m inner_dht_len extra_inner_scratch ;;
    Ok (boilerplate_dht len inplace_scratch_len extra_inner_scratch
          (raders_inplace_run inner_dht len root root_inv twiddles)
          (raders_oop_run inner_dht len root root_inv twiddles)).

  (** run the constructors of a composition *)
  Fixpoint run_tree (t : tree) : res (Dht T) :=
    match t with
    | Naive n => naive_run n
    | Fly1 => Ok butterfly1 | Fly2 => Ok butterfly2 | Fly3 => Ok butterfly3 | Fly4 => Ok butterfly4 | Fly5 => Ok butterfly5
    | Fly6 => Ok butterfly6 | Fly8 => Ok butterfly8 | Fly9 => Ok butterfly9 | Fly16 => Ok butterfly16
    | Mixed w h => dw <- run_tree w ;; dh <- run_tree h ;; mixed_run dw dh
    | Two t => d <- run_tree t ;; radix2_run d
    | Three t => d <- run_tree t ;; radix3_run d
    | Four t => d <- run_tree t ;; radix4xn_run d
    | Five t => d <- run_tree t ;; radix5_run d
    | Six t => d <- run_tree t ;; radix6_run d
    | Split q h => dq <- run_tree q ;; dh <- run_tree h ;; split_run dq dh
    | Rad4 len => radix4_run len
    | Rader t => d <- run_tree t ;; raders_run d
    end.
End Proc.
