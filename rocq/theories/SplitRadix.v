(** * Model of src/scalar/split_radix.rs *)
From Verif Require Export Trait.

Section SplitRadix.
  Context {T : Type} `{Num T}.

  (** split_radix.rs:28-34 *)
  Definition split_twiddles (len : nat) : list (cplx T) :=
    flat_map (fun x => [compute_dft_twiddle_inverse (x * 1) len;
                        compute_dft_twiddle_inverse (x * 3) len])
             (seq 0 (len / 8 + 1)).

  (** split_radix.rs:73-112, one iteration; the state is
      (buffer_half0, buffer_half1, buffer_quarter1, buffer_quarter3). *)
  Definition split_cell (quarter_len : nat) (twiddles : list (cplx T)) (i : nat)
             (st : list T * list T * list T * list T)
    : res (list T * list T * list T * list T) :=
    let '(half0, half1, quarter1, quarter3) := st in
    twiddle1_fwd <- uidx twiddles (2 * i) ;;
    twiddle3_fwd <- uidx twiddles (2 * i + 1) ;;
    i_rev <- usub quarter_len i ;;
    input_fwd0 <- uidx half0 i ;; input_fwd1 <- uidx half1 i ;;
    input_fwd2 <- uidx quarter1 i ;; input_fwd3 <- uidx quarter3 i ;;
    input_rev0 <- uidx half0 i_rev ;; input_rev1 <- uidx half1 i_rev ;;
    input_rev2 <- uidx quarter1 i_rev ;; input_rev3 <- uidx quarter3 i_rev ;;
    let diff0_fwd := input_fwd0 -! input_fwd2 in
    let diff0_rev := input_rev0 -! input_rev2 in
    let diff1_fwd := input_fwd1 -! input_fwd3 in
    let diff1_rev := input_rev1 -! input_rev3 in
    let diff0_sum := diff0_fwd +! diff0_rev in
    let diff0_dif := diff0_fwd -! diff0_rev in
    let diff1_sum := diff1_fwd +! diff1_rev in
    let diff1_dif := diff1_fwd -! diff1_rev in
    half0 <- uset half0 i (input_fwd0 +! input_fwd2) ;;
    half1 <- uset half1 i (input_fwd1 +! input_fwd3) ;;
    half0 <- uset half0 i_rev (input_rev0 +! input_rev2) ;;
    half1 <- uset half1 i_rev (input_rev1 +! input_rev3) ;;
    quarter1 <- uset quarter1 i (diff0_sum *! re twiddle1_fwd -! diff1_dif *! im twiddle1_fwd) ;;
    quarter3 <- uset quarter3 i (diff0_dif *! re twiddle3_fwd +! diff1_sum *! im twiddle3_fwd) ;;
    quarter1 <- uset quarter1 i_rev (diff0_sum *! im twiddle1_fwd +! diff1_dif *! re twiddle1_fwd) ;;
    quarter3 <- uset quarter3 i_rev (diff0_dif *! im twiddle3_fwd -! diff1_sum *! re twiddle3_fwd) ;;
    Ok (half0, half1, quarter1, quarter3).

  (** split_radix.rs:48-113 apply_twiddles *)
  Definition split_apply_twiddles (len : nat) (twiddles : list (cplx T)) (buffer : list T)
    : res (list T) :=
    let half_len := len / 2 in
    let quarter_len := len / 4 in
    let eigth_len := len / 8 in
    '(buffer_evens, buffer_odds) <- split_at buffer half_len ;;
    '(half0, half1) <- split_at buffer_evens quarter_len ;;
    '(quarter1, quarter3) <- split_at buffer_odds quarter_len ;;
    (* :58-71, i == 0 *)
    q0 <- idx half0 0 ;; q1 <- idx half1 0 ;; q2 <- idx quarter1 0 ;; q3 <- idx quarter3 0 ;;
    let diff0_fwd := q0 -! q2 in
    let diff0_rev := q1 -! q3 in
    half0 <- set half0 0 (q0 +! q2) ;;
    half1 <- set half1 0 (q1 +! q3) ;;
    quarter1 <- set quarter1 0 (diff0_fwd +! diff0_rev) ;;
    quarter3 <- set quarter3 0 (diff0_fwd -! diff0_rev) ;;
    '(half0, half1, quarter1, quarter3) <-
      for_range 1 (eigth_len + 1) (split_cell quarter_len twiddles)
                (half0, half1, quarter1, quarter3) ;;
    Ok ((half0 ++ half1) ++ (quarter1 ++ quarter3)).

  (** split_radix.rs:115-134 perform_dht_inplace *)
  Definition split_inplace (quarter_dht half_dht : Dht T) (len : nat) (twiddles : list (cplx T))
             (buffer scratch : list T) : res (list T * list T) :=
    buffer <- split_apply_twiddles len twiddles buffer ;;
    let half_len := len / 2 in
    let quarter_len := len / 4 in
    '(buffer_evens, buffer_odds) <- split_at buffer half_len ;;
    '(buffer_evens, scratch) <- dht_process_with_scratch half_dht buffer_evens scratch ;;
    '(buffer_odds, scratch, _) <- dht_process_oop quarter_dht buffer_odds scratch [] ;;
    let buffer := buffer_evens ++ buffer_odds in
    '(scratch_quarter1, scratch_quarter3) <- split_at scratch quarter_len ;;
    buffer <- for_each (rev (seq 0 quarter_len)) (fun i buffer =>
        v <- uidx buffer (i * 2) ;; buffer <- uset buffer (4 * i + 0) v ;;
        v <- uidx buffer (i * 2 + 1) ;; buffer <- uset buffer (4 * i + 2) v ;;
        v <- uidx scratch_quarter1 i ;; buffer <- uset buffer (4 * i + 1) v ;;
        v <- uidx scratch_quarter3 i ;; uset buffer (4 * i + 3) v) buffer ;;
    Ok (buffer, scratch_quarter1 ++ scratch_quarter3).

  (** split_radix.rs:136-160 perform_dht_out_of_place; cell [j] of chunk [i] of
      [output.chunks_exact_mut(4)] is [output[4*i+j]]. *)
  Definition split_oop (quarter_dht half_dht : Dht T) (len : nat) (twiddles : list (cplx T))
             (input output scratch : list T) : res (list T * list T * list T) :=
    input <- split_apply_twiddles len twiddles input ;;
    let half_len := len / 2 in
    let quarter_len := len / 4 in
    '(buffer_evens, buffer_odds) <- split_at input half_len ;;
    '(buffer_evens, output) <- dht_process_with_scratch half_dht buffer_evens output ;;
    '(buffer_odds, output) <- dht_process_with_scratch quarter_dht buffer_odds output ;;
    '(buffer_quarter1, buffer_quarter3) <- split_at buffer_odds quarter_len ;;
    output <- for_range 0 (length output / 4) (fun i output =>
        v <- uidx buffer_evens (i * 2) ;; output <- uset output (4 * i + 0) v ;;
        v <- uidx buffer_quarter1 i ;; output <- uset output (4 * i + 1) v ;;
        v <- uidx buffer_evens (i * 2 + 1) ;; output <- uset output (4 * i + 2) v ;;
        v <- uidx buffer_quarter3 i ;; uset output (4 * i + 3) v) output ;;
    Ok (buffer_evens ++ (buffer_quarter1 ++ buffer_quarter3), output, scratch).

  (** split_radix.rs:21-46 SplitRadix::new *)
  Definition split_radix (quarter_dht half_dht : Dht T) : res (Dht T) :=
    let quarter_len := dht_len quarter_dht in
    let half_len := dht_len half_dht in
    _ <- rassert (half_len =? quarter_len * 2) ;;
    let len := quarter_len * 4 in
    let twiddles := split_twiddles len in
    Ok (boilerplate_dht len half_len 0
          (split_inplace quarter_dht half_dht len twiddles)
          (split_oop quarter_dht half_dht len twiddles)).
End SplitRadix.
