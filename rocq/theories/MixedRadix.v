(** * Model of src/scalar/mixed_radix.rs *)
From Verif Require Export Trait.

Section MixedRadix.
  Context {T : Type} `{Num T}.

  (** mixed_radix.rs:51-65 the twiddle table built by MixedRadix::new *)
  Definition mixed_twiddles (width height : nat) : list (cplx T) :=
    let len := width * height in
    let row_limit := width / 2 + 1 in
    let column_limit := height / 2 + 1 in
    flat_map (fun row =>
      map (fun column =>
             cscale (compute_dft_twiddle_inverse (row * column * 8 + len) (len * 8)) nroot_half)
          (seq 1 (column_limit - 1)))
      (seq 1 (row_limit - 1)).

  (** mixed_radix.rs:142-159, the body of the inner loop of apply_twiddles *)
  Definition mixed_cell (height row row_rev : nat) (column : nat) (twiddle : cplx T)
             (buffer : list T) : res (list T) :=
    column_rev <- usub height column ;;
    input_top_fwd <- idx buffer (height * row + column) ;;
    input_top_rev <- idx buffer (height * row + column_rev) ;;
    input_bot_fwd <- idx buffer (height * row_rev + column) ;;
    input_bot_rev <- idx buffer (height * row_rev + column_rev) ;;
    let out_top_fwd := input_top_fwd +! input_bot_rev in
    let out_top_rev := input_bot_fwd +! input_top_rev in
    let out_bot_fwd := input_bot_fwd -! input_top_rev in
    let out_bot_rev := input_top_fwd -! input_bot_rev in
    buffer <- set buffer (height * row + column)
                  (re twiddle *! out_top_fwd -! im twiddle *! out_bot_fwd) ;;
    buffer <- set buffer (height * row + column_rev)
                  (re twiddle *! out_top_rev -! im twiddle *! out_bot_rev) ;;
    buffer <- set buffer (height * row_rev + column)
                  (re twiddle *! out_bot_fwd +! im twiddle *! out_top_fwd) ;;
    set buffer (height * row_rev + column_rev)
        (re twiddle *! out_bot_rev +! im twiddle *! out_top_rev).

  (** mixed_radix.rs:165-176, the body of the loop over the middle row *)
  Definition mixed_cell_mid (height row : nat) (column : nat) (twiddle : cplx T)
             (buffer : list T) : res (list T) :=
    column_rev <- usub height column ;;
    input_top_fwd <- idx buffer (height * row + column) ;;
    input_top_rev <- idx buffer (height * row + column_rev) ;;
    let out_top_fwd := input_top_fwd -! input_top_rev in
    let out_bot_fwd := input_top_fwd +! input_top_rev in
    buffer <- set buffer (height * row + column)
                  (re twiddle *! out_top_fwd +! im twiddle *! out_bot_fwd) ;;
    set buffer (height * row + column_rev)
        (re twiddle *! out_bot_fwd -! im twiddle *! out_top_fwd).

  (** mixed_radix.rs:115-178 apply_twiddles.  [(1..row_limit).zip(twiddles_iter.by_ref())] pulls one
      chunk per row and, because the range is exhausted first, no extra one; so after the loop
      [twiddles_iter.next()] is chunk number [row_limit - 1]. *)
  Definition mixed_apply_twiddles (width height : nat) (twiddles : list (cplx T)) (buffer : list T)
    : res (list T) :=
    let row_limit := (width + 1) / 2 in
    let column_limit := height / 2 + 1 in
    twiddle_stride <- usub column_limit 1 ;;
    if (width <? 2) || (height <? 2) then Ok buffer else
    chunks <- chunks_exact twiddle_stride twiddles ;;
    buffer <- for_each (combine (seq 1 (row_limit - 1)) chunks) (fun '(row, twiddle_chunk) buffer =>
        row_rev <- usub width row ;;
        for_each (combine (seq 1 (column_limit - 1)) twiddle_chunk) (fun '(column, twiddle) buffer =>
          mixed_cell height row row_rev column twiddle buffer) buffer) buffer ;;
    if width mod 2 =? 0 then
      let row := width / 2 in
      main_twiddle_chunk <- idx chunks (row_limit - 1) ;;
      for_each (combine (seq 1 (column_limit - 1)) main_twiddle_chunk) (fun '(column, twiddle) buffer =>
        mixed_cell_mid height row column twiddle buffer) buffer
    else Ok buffer.

  (** [let second_half = &mut b[from..]; for chunk in second_half.chunks_exact_mut(n) { chunk.reverse() }]
      mixed_radix.rs:195-198, 215-218, 244-247, 268-271 *)
  Definition reverse_second_half (b : list T) (from n : nat) : res (list T) :=
    '(first, second_half) <- split_at b from ;;
    second_half <- reverse_chunks n second_half ;;
    Ok (first ++ second_half).

  (** mixed_radix.rs:194 and :243 *)
  Definition reversal_row_begin (width : nat) : nat :=
    if width mod 2 =? 0 then width / 2 + 1 else (width + 1) / 2.

  (** mixed_radix.rs:180-222 perform_dht_inplace *)
  Definition mixed_inplace (width_dht height_dht : Dht T) (width height : nat)
             (twiddles : list (cplx T)) (buffer scratch : list T) : res (list T * list T) :=
    let len := width * height in
    '(scratch, inner_scratch) <- split_at scratch len ;;
    scratch <- transpose buffer scratch width height ;;
    scratch <- reverse_second_half scratch (reversal_row_begin width * height) height ;;
    '(scratch, buffer, inner_scratch) <-
       (if length buffer <? length inner_scratch then
          '(s, i) <- dht_process_with_scratch height_dht scratch inner_scratch ;; Ok (s, buffer, i)
        else
          '(s, b) <- dht_process_with_scratch height_dht scratch buffer ;; Ok (s, b, inner_scratch)) ;;
    scratch <- mixed_apply_twiddles width height twiddles scratch ;;
    buffer <- transpose scratch buffer height width ;;
    '(buffer, scratch, inner_scratch) <- dht_process_oop width_dht buffer scratch inner_scratch ;;
    scratch <- reverse_second_half scratch ((height + 1) / 2 * width) width ;;
    buffer <- transpose scratch buffer width height ;;
    Ok (buffer, scratch ++ inner_scratch).

  (** mixed_radix.rs:224-275 perform_dht_out_of_place *)
  Definition mixed_oop (width_dht height_dht : Dht T) (width height : nat)
             (twiddles : list (cplx T)) (input output scratch : list T)
    : res (list T * list T * list T) :=
    output <- transpose input output width height ;;
    output <- reverse_second_half output (reversal_row_begin width * height) height ;;
    '(output, input, scratch) <-
       (if length input <? length scratch then
          '(o, s) <- dht_process_with_scratch height_dht output scratch ;; Ok (o, input, s)
        else
          '(o, i) <- dht_process_with_scratch height_dht output input ;; Ok (o, i, scratch)) ;;
    output <- mixed_apply_twiddles width height twiddles output ;;
    input <- transpose output input height width ;;
    '(input, output, scratch) <-
       (if length output <? length scratch then
          '(i, s) <- dht_process_with_scratch width_dht input scratch ;; Ok (i, output, s)
        else
          '(i, o) <- dht_process_with_scratch width_dht input output ;; Ok (i, o, scratch)) ;;
    input <- reverse_second_half input ((height + 1) / 2 * width) width ;;
    output <- transpose input output width height ;;
    Ok (input, output, scratch).

  (** mixed_radix.rs:45-113 MixedRadix::new; [width * height] is assumed not to overflow usize *)
  Definition mixed_radix (width_dht height_dht : Dht T) : Dht T :=
    let width := dht_len width_dht in
    let height := dht_len height_dht in
    let len := width * height in
    let height_inplace_scratch := dht_inplace_scratch height_dht in
    let width_inplace_scratch := dht_inplace_scratch width_dht in
    let width_outofplace_scratch := dht_oop_scratch width_dht in
    let max_inner_inplace_scratch := Nat.max height_inplace_scratch width_inplace_scratch in
    let outofplace_scratch_len :=
      if len <? max_inner_inplace_scratch then max_inner_inplace_scratch else 0 in
    let inplace_scratch_len :=
      len + Nat.max (if len <? height_inplace_scratch then height_inplace_scratch else 0)
                    width_outofplace_scratch in
    let twiddles := mixed_twiddles width height in
    boilerplate_dht len inplace_scratch_len outofplace_scratch_len
      (mixed_inplace width_dht height_dht width height twiddles)
      (mixed_oop width_dht height_dht width height twiddles).
End MixedRadix.
