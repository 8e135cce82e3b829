(** * Model of src/scalar/dht_naive.rs *)
From Verif Require Export Trait.

Section Naive.
  Context {T : Type} `{Num T}.

  (** dht_naive.rs:27-34 DhtNaive::new: the twiddle table *)
  Definition naive_twiddles (len : nat) : list T :=
    map (fun i => compute_dht_twiddle i len) (seq 0 len).

  (** dht_naive.rs:36-58 perform_dht_out_of_place; the inner loop state is the pair
      (output_value, twiddle_index). *)
  Definition naive_perform (twiddles : list T) (input output : list T) : res (list T) :=
    for_range 0 (length output) (fun k output =>
      '(output_value, _) <- for_each input (fun input_cell '(output_value, twiddle_index) =>
          twiddle <- idx twiddles twiddle_index ;;
          let output_value := output_value +! twiddle *! input_cell in
          let twiddle_index := twiddle_index + k in
          twiddle_index <- (if length twiddles <=? twiddle_index
                            then usub twiddle_index (length twiddles)
                            else Ok twiddle_index) ;;
          Ok (output_value, twiddle_index)) (nzero, 0) ;;
      set output k output_value) output.

  (** dht_naive.rs:27-34,60 DhtNaive::new with its Dht impl *)
  Definition dht_naive (len : nat) : Dht T :=
    let twiddles := naive_twiddles len in
    boilerplate_dht_oop (length twiddles) (naive_perform twiddles).
End Naive.
