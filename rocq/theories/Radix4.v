(** * Model of Radix4 (src/scalar/radix4.rs:184-441) *)
From Verif Require Export Nxn.

Section Radix4.
  Context {T : Type} `{Num T}.

  (** usize::is_power_of_two *)
  Definition is_power_of_two (n : nat) : bool := negb (n =? 0) && (2 ^ Nat.log2 n =? n).

  (** usize::trailing_zeros, for n > 0 *)
  Fixpoint trailing_zeros_go (fuel n : nat) : nat :=
    match fuel with
    | 0 => 0
    | S f => if n mod 2 =? 0 then S (trailing_zeros_go f (n / 2)) else 0
    end.
  Definition trailing_zeros (n : nat) : nat := trailing_zeros_go n n.

  (** radix4.rs:203-216 choice of the base *)
  Definition radix4_base (len : nat) : nat * Dht T :=
    match trailing_zeros len with
    | 0 => (len, butterfly1)
    | 1 => (len, butterfly2)
    | 2 => (len, butterfly4)
    | num_bits => if num_bits mod 2 =? 1 then (8, butterfly8) else (16, butterfly16)
    end.

  (** radix4.rs:222-233 the layered twiddle table; the [while] loop divides the stride by 4, so
      [fuel = S len] iterations are more than enough. *)
  Fixpoint radix4_twiddles_go (fuel len twiddle_stride : nat) : res (list (cplx T)) :=
    match fuel with
    | 0 => Hang
    | S f =>
      if 0 <? twiddle_stride then
        let num_rows := len / (twiddle_stride * 4) in
        let layer := flat_map (fun i =>
                       map (fun k => compute_dft_twiddle_inverse (i * k * twiddle_stride) len)
                           (seq 1 2))
                     (seq 1 (num_rows - 1)) in
        rest <- radix4_twiddles_go f len (twiddle_stride / 4) ;;
        Ok (layer ++ rest)
      else Ok []
    end.
  Definition radix4_twiddles (len base_len : nat) : res (list (cplx T)) :=
    radix4_twiddles_go (S len) len (len / (base_len * 4)).

  (** [&mut output[from..]] handed to [f] *)
  Definition on_tail (output : list T) (from : nat) (f : list T -> res (list T)) : res (list T) :=
    '(before, tail) <- split_at output from ;;
    tail' <- f tail ;;
    Ok (before ++ tail').

  (** radix4.rs:291-326 prepare_radix4 ([reversed = false]) and :328-362 prepare_radix4_reversed
      ([reversed = true]); returns the new output.  The recursion divides [size] by 4; running out of
      fuel ([S size] at the top) stands for unbounded recursion. *)
  Fixpoint prepare_radix4 (fuel : nat) (reversed : bool) (size base_len : nat)
           (input output : list T) (stride : nat) : res (list T) :=
    match fuel with
    | 0 => Hang
    | S f =>
      if size =? base_len then
        for_range 0 size (fun i output =>
          j <- (if reversed then s <- usub size i ;; usub s 1 else Ok i) ;;
          v <- uidx input (j * stride) ;;
          uset output i v) output
      else
        for_range 0 4 (fun i output =>
          '(_, sub_input) <- split_at input (i * stride) ;;
          on_tail output (i * (size / 4)) (fun sub_output =>
            (* not reversed: children 0,1,2 plain and 3 reversed (:305-324);
               reversed: child 0 plain and 1,2,3 reversed (:342-360) *)
            prepare_radix4 f (if reversed then negb (i =? 0) else i =? 3)
                           (size / 4) base_len sub_input sub_output (stride * 4))) output
    end.

  (** radix4.rs:268-286 the cross-FFT loop; current_size is multiplied by 4 each time *)
  Fixpoint radix4_cross (fuel len current_size : nat) (layer_twiddles : list (cplx T))
           (output : list T) : res (list T) :=
    match fuel with
    | 0 => Hang
    | S f =>
      if current_size <=? len then
        let num_rows := len / current_size in
        output <- for_range 0 num_rows (fun i output =>
          on_tail output (i * current_size) (fun data =>
            radix4_apply (current_size / 4) layer_twiddles data)) output ;;
        twiddle_offset <- usub (current_size * 2 / 4) 2 ;;
        '(_, layer_twiddles) <- split_at layer_twiddles twiddle_offset ;;
        radix4_cross f len (current_size * 4) layer_twiddles output
      else Ok output
    end.

  (** radix4.rs:252-287 perform_dht_out_of_place *)
  Definition radix4_oop (len base_len : nat) (base_dht : Dht T) (twiddles : list (cplx T))
             (input output scratch : list T) : res (list T * list T * list T) :=
    output <- prepare_radix4 (S len) false len base_len input output 1 ;;
    '(output, _) <- dht_process_with_scratch base_dht output [] ;;
    output <- radix4_cross (S len) len (base_len * 4) twiddles output ;;
    Ok (input, output, scratch).

  (** radix4.rs:247-250 perform_dht_inplace *)
  Definition radix4_inplace (len base_len : nat) (base_dht : Dht T) (twiddles : list (cplx T))
             (buffer scratch : list T) : res (list T * list T) :=
    scratch <- copy_from_slice scratch buffer ;;
    '(scratch, buffer, _) <- radix4_oop len base_len base_dht twiddles scratch buffer [] ;;
    Ok (buffer, scratch).

  (** radix4.rs:196-245 Radix4::new *)
  Definition radix4 (len : nat) : res (Dht T) :=
    _ <- rassert (is_power_of_two len) ;;
    let '(base_len, base_dht) := radix4_base len in
    twiddles <- radix4_twiddles len base_len ;;
    Ok (boilerplate_dht len len 0
          (radix4_inplace len base_len base_dht twiddles)
          (radix4_oop len base_len base_dht twiddles)).
End Radix4.
