(** * Radix4 with one expression of prepare_radix4_reversed changed

    Not code of the repository.  radix4.rs:348 and :357 hand the i-th quarter of a reversed block the output from
    [i * (size / 4)] on; reversing a block also reverses the order of its quarters, so here they are handed the
    output from [(3 - i) * (size / 4)] on.  Everything else is Radix4.v, word for word.  Used only to state where
    the fault of Radix4 lies (C73). *)
From Verif Require Export Radix4.

Section Radix4Fix.
  Context {T : Type} `{Num T}.

  (** radix4.rs:291-362 with the changed offset *)
  Fixpoint prepare_radix4_fixed (fuel : nat) (reversed : bool) (size base_len : nat)
           (input output : list T) (stride : nat) : res (list T) :=
    match fuel with
    | 0 => Hang
    | S f =>
      if size =? base_len then
        for_range 0 size (fun i output =>
          j <- (if reversed then s <- usub size i ;; usub s 1 else Ok i) ;;
          v <- uidx input (j * stride) ;;
          uset output i v) output
      else
        for_range 0 4 (fun i output =>
          '(_, sub_input) <- split_at input (i * stride) ;;
          on_tail output ((if reversed then 3 - i else i) * (size / 4)) (fun sub_output =>
            prepare_radix4_fixed f (if reversed then negb (i =? 0) else i =? 3)
                           (size / 4) base_len sub_input sub_output (stride * 4))) output
    end.

  (** radix4.rs:252-287 *)
  Definition radix4_fixed_oop (len base_len : nat) (base_dht : Dht T) (twiddles : list (cplx T))
             (input output scratch : list T) : res (list T * list T * list T) :=
    output <- prepare_radix4_fixed (S len) false len base_len input output 1 ;;
    '(output, _) <- dht_process_with_scratch base_dht output [] ;;
    output <- radix4_cross (S len) len (base_len * 4) twiddles output ;;
    Ok (input, output, scratch).

  (** radix4.rs:247-250 *)
  Definition radix4_fixed_inplace (len base_len : nat) (base_dht : Dht T) (twiddles : list (cplx T))
             (buffer scratch : list T) : res (list T * list T) :=
    scratch <- copy_from_slice scratch buffer ;;
    '(scratch, buffer, _) <- radix4_fixed_oop len base_len base_dht twiddles scratch buffer [] ;;
    Ok (buffer, scratch).

  (** radix4.rs:196-245 *)
  Definition radix4_fixed (len : nat) : res (Dht T) :=
    _ <- rassert (is_power_of_two len) ;;
    let '(base_len, base_dht) := radix4_base len in
    twiddles <- radix4_twiddles len base_len ;;
    Ok (boilerplate_dht len len 0
          (radix4_fixed_inplace len base_len base_dht twiddles)
          (radix4_fixed_oop len base_len base_dht twiddles)).
End Radix4Fix.
