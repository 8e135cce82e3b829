(** * Model of src/array_utils.rs and of the [transpose] crate contract. *)
From Verif Require Export Base.

Section ArrayUtils.
  Context {T S : Type}.

  (** src/array_utils.rs:5-24 iter_chunks.  The closure's captured state (the scratch slice) is the
      threaded value [st]; the result is the new buffer, the new state and whether Ok(()) was returned.
      Fuel [S (length buffer)] exceeds the number of iterations whenever [chunk_size > 0]; for
      [chunk_size = 0] the Rust loop never ends, and the model yields [Hang]. *)
  Fixpoint iter_chunks_go (fuel chunk_size : nat) (chunk_fn : list T -> S -> res (list T * S))
           (buffer : list T) (st : S) : res (list T * S * bool) :=
    match fuel with
    | 0 => Hang
    | Datatypes.S f =>
      if chunk_size <=? length buffer then
        '(head, tail) <- split_at buffer chunk_size ;;
        '(head', st') <- chunk_fn head st ;;
        '(rest, st'', ok) <- iter_chunks_go f chunk_size chunk_fn tail st' ;;
        Ok (head' ++ rest, st'', ok)
      else Ok (buffer, st, length buffer =? 0)
    end.
  Definition iter_chunks (buffer : list T) (chunk_size : nat)
             (chunk_fn : list T -> S -> res (list T * S)) (st : S) : res (list T * S * bool) :=
    iter_chunks_go (Datatypes.S (length buffer)) chunk_size chunk_fn buffer st.

  (** src/array_utils.rs:46-57, the loop of iter_chunks_zipped *)
  Fixpoint iter_chunks_zipped_go (fuel chunk_size : nat)
           (chunk_fn : list T -> list T -> S -> res (list T * list T * S))
           (uneven : bool) (buffer1 buffer2 : list T) (st : S) : res (list T * list T * S * bool) :=
    match fuel with
    | 0 => Hang
    | Datatypes.S f =>
      if (chunk_size <=? length buffer1) && (chunk_size <=? length buffer2) then
        '(head1, tail1) <- split_at buffer1 chunk_size ;;
        '(head2, tail2) <- split_at buffer2 chunk_size ;;
        '(head1', head2', st') <- chunk_fn head1 head2 st ;;
        '(rest1, rest2, st'', ok) <-
           iter_chunks_zipped_go f chunk_size chunk_fn uneven tail1 tail2 st' ;;
        Ok (head1' ++ rest1, head2' ++ rest2, st'', ok)
      else Ok (buffer1, buffer2, st, negb uneven && (length buffer1 =? 0))
    end.

  (** src/array_utils.rs:28-62 iter_chunks_zipped.  The second branch repeats the test of the first
      (line 38 compares [buffer2.len() < buffer1.len()] again) exactly as in the source. *)
  Definition iter_chunks_zipped (buffer1 buffer2 : list T) (chunk_size : nat)
             (chunk_fn : list T -> list T -> S -> res (list T * list T * S)) (st : S)
    : res (list T * list T * S * bool) :=
    if length buffer2 <? length buffer1 then
      '(b1, snipped) <- split_at buffer1 (length buffer2) ;;
      '(b1', b2', st', ok) <-
         iter_chunks_zipped_go (Datatypes.S (length b1)) chunk_size chunk_fn true b1 buffer2 st ;;
      Ok (b1' ++ snipped, b2', st', ok)
    else if length buffer2 <? length buffer1 then
      '(b2, snipped) <- split_at buffer2 (length buffer1) ;;
      '(b1', b2', st', ok) <-
         iter_chunks_zipped_go (Datatypes.S (length buffer1)) chunk_size chunk_fn true buffer1 b2 st ;;
      Ok (b1', b2' ++ snipped, st', ok)
    else
      iter_chunks_zipped_go (Datatypes.S (length buffer1)) chunk_size chunk_fn false buffer1 buffer2 st.
End ArrayUtils.

Section Transpose.
  Context {T : Type}.

  (** src/array_utils.rs:146-160 transpose_half_rev_out; returns the new [output] *)
  Definition transpose_half_rev_out (input output : list T) (width height : nat) : res (list T) :=
    _ <- rassert (length input =? length output) ;;
    _ <- rassert (length input =? width * height) ;;
    let reversal_row_begin := width / 2 + 1 in
    for_range 0 height (fun out_row output =>
      h1 <- usub height out_row ;;
      out_row_rev <- usub h1 1 ;;
      output <- for_range 0 reversal_row_begin (fun out_column output =>
          v <- uidx input (out_row * width + out_column) ;;
          uset output (out_column * height + out_row) v) output ;;
      for_range reversal_row_begin width (fun out_column output =>
          v <- uidx input (out_row * width + out_column) ;;
          uset output (out_column * height + out_row_rev) v) output) output.

  (** Dependency (crate [transpose], not in /repo): [transpose::transpose(input, output, w, h)]
      asserts that both slices have [w*h] elements and writes
      [output[x*h + y] = input[y*w + x]].  Modelled by this contract. *)
  Definition transpose (input output : list T) (width height : nat) : res (list T) :=
    _ <- rassert (width * height =? length input) ;;
    _ <- rassert (width * height =? length output) ;;
    for_range 0 height (fun y output =>
      for_range 0 width (fun x output =>
        v <- uidx input (y * width + x) ;;
        uset output (x * height + y) v) output) output.

  (** [for chunk in l.chunks_exact_mut(n) { chunk.reverse() }]; the remainder is untouched. *)
  Fixpoint reverse_chunks_go (fuel n : nat) (l : list T) : list T :=
    match fuel with
    | 0 => l
    | Datatypes.S f =>
      if n <=? length l then rev (firstn n l) ++ reverse_chunks_go f n (skipn n l) else l
    end.
  Definition reverse_chunks (n : nat) (l : list T) : res (list T) :=
    if n =? 0 then Panic else Ok (reverse_chunks_go (length l) n l).
End Transpose.
