(** * Model of src/test_utils.rs and of the [#[cfg(test)]] modules of src/scalar

    [random_real_signal] draws from a seeded generator; it is a parameter [signal], a function from lengths to signals.
    [println!] and [_transpose_diagnostic_real], which nothing calls, are left out. *)
From Verif Require Export Ieee Naive Butterflies MixedRadix Nxn Radix4 SplitRadix Raders.
From Coq Require Import NArith.

(** what the tests use of [T: Float] besides [Num] *)
Class FloatNum (T : Type) := {
  fl_abs : T -> T;                 (* abs() *)
  fl_to_f64 : T -> f64;            (* to_f64().unwrap() *)
  fl_hundred : T                   (* T::one() * T::from_i32(100).unwrap() *)
}.
Definition f32_of_usize (n : nat) : f32 := binary_normalize 24 128 eq_refl eq_refl mode_NE (Z.of_nat n) 0 false.
Global Instance FloatNum_f32 : FloatNum f32 := {|
  fl_abs := Babs; fl_to_f64 := f64_of_f32; fl_hundred := f32_mul (f32_of_usize 1) (f32_of_usize 100) |}.
Global Instance FloatNum_f64 : FloatNum f64 := {|
  fl_abs := Babs; fl_to_f64 := fun v => v; fl_hundred := f64_mul f64_one (f64_of_usize 100) |}.

(** the literal 0.1f64 = 3602879701896397 / 2^55 *)
Definition f64_tenth : f64 := binary_normalize 53 1024 eq_refl eq_refl mode_NE 3602879701896397 (-55) false.

Section TestUtils.
  Context {T : Type} {NT : Num T} {FT : FloatNum T}.

  (** test_utils.rs:26-33 compare_real_vectors *)
  Definition compare_real_vectors (vec1 vec2 : list T) : res bool :=
    _ <- rassert (length vec1 =? length vec2) ;;
    let error := fold_left (fun error '(a, b) => error +! fl_abs (a -! b)) (combine vec1 vec2) nzero in
    Ok (Bltb (f64_div (fl_to_f64 error) (f64_of_usize (length vec1))) f64_tenth).

  (** [assert!(compare_real_vectors(..))] *)
  Definition assert_close (vec1 vec2 : list T) : res unit :=
    same <- compare_real_vectors vec1 vec2 ;; rassert same.

  Context (signal : nat -> list T).

  (** test_utils.rs:51-145 check_dht_algorithm *)
  Definition check_dht_algorithm (fft : Dht T) (len : nat) : res unit :=
    _ <- rassert (dht_len fft =? len) ;;
    let n := 1 in
    let dht := dht_naive len in
    let reference_input := signal (len * n) in
    '(expected_output, _) <- dht_process_with_scratch dht reference_input (repeat nzero (dht_inplace_scratch dht)) ;;
    (* test_utils.rs:78-88 *)
    buffer <- dht_process fft reference_input ;;
    _ <- assert_close expected_output buffer ;;
    (* test_utils.rs:91-114 *)
    '(buffer, scratch) <- dht_process_with_scratch fft reference_input (repeat nzero (dht_inplace_scratch fft)) ;;
    _ <- assert_close expected_output buffer ;;
    _ <- (if 0 <? length scratch then
            let scratch := map (fun _ => fl_hundred) scratch in
            buffer <- copy_from_slice buffer reference_input ;;
            '(buffer, _) <- dht_process_with_scratch fft buffer scratch ;;
            assert_close expected_output buffer
          else Ok tt) ;;
    (* test_utils.rs:117-144 *)
    '(input, output, scratch) <-
       dht_process_oop fft reference_input expected_output (repeat nzero (dht_oop_scratch fft)) ;;
    _ <- assert_close expected_output output ;;
    if 0 <? length scratch then
      let scratch := map (fun _ => fl_hundred) scratch in
      input <- copy_from_slice input reference_input ;;
      '(_, output, _) <- dht_process_oop fft input output scratch ;;
      assert_close expected_output output
    else Ok tt.

  (** test_utils.rs:148-190 BigScratchAlgorithm *)
  Definition big_scratch_algorithm (len inplace_scratch outofplace_scratch : nat) : Dht T :=
    mkDht len inplace_scratch outofplace_scratch
      (fun buffer scratch => _ <- rassert (inplace_scratch <=? length scratch) ;; Ok (buffer, scratch))
      (fun input output scratch => _ <- rassert (outofplace_scratch <=? length scratch) ;; Ok (input, output, scratch)).
End TestUtils.

(** [for x in l { body }] without state *)
Definition each {A : Type} (l : list A) (body : A -> res unit) : res unit := for_each l (fun a _ => body a) tt.

Section Tests.
  Context {T : Type} {NT : Num T} {FT : FloatNum T} (signal : nat -> list T).
  Notation check := (check_dht_algorithm signal).

  (** mixed_radix.rs:288-304 test_mixed_radix_correct *)
  Definition test_mixed_radix_correct : res unit :=
    each (seq 1 8) (fun width => each (seq 1 8) (fun height =>
      check (mixed_radix (dht_naive width) (dht_naive height)) (width * height))).

  (** mixed_radix.rs:307-345 test_mixed_radix_inner_scratch, the body of the two loops *)
  Definition test_inner_scratch (width_dht height_dht : Dht T) : res unit :=
    let dht := mixed_radix width_dht height_dht in
    _ <- dht_process_with_scratch dht (repeat nzero (dht_len dht)) (repeat nzero (dht_inplace_scratch dht)) ;;
    _ <- dht_process_oop dht (repeat nzero (dht_len dht)) (repeat nzero (dht_len dht)) (repeat nzero (dht_oop_scratch dht)) ;;
    Ok tt.
  Definition test_mixed_radix_inner_scratch : res unit :=
    let scratch_lengths := [1; 5; 25] in
    let inner_dhts := flat_map (fun len => flat_map (fun inplace_scratch => map (fun outofplace_scratch =>
      big_scratch_algorithm len inplace_scratch outofplace_scratch) scratch_lengths) scratch_lengths) scratch_lengths in
    each inner_dhts (fun width_dht => each inner_dhts (fun height_dht => test_inner_scratch width_dht height_dht)).

  (** radix2.rs:160-173, radix3.rs:186-199, radix4.rs:450-463, radix5.rs:210-223, radix6.rs:224-237 *)
  Definition test_mixed_radix_2xn_correct : res unit :=
    each (seq 1 6) (fun height => check (mixed_radix_2xn (dht_naive height)) (height * 2)).
  Definition test_mixed_radix_3xn_correct : res unit :=
    each (seq 1 6) (fun height => check (mixed_radix_3xn (dht_naive height)) (height * 3)).
  Definition test_mixed_radix_4xn_correct : res unit :=
    each (seq 1 6) (fun height => check (mixed_radix_4xn (dht_naive height)) (height * 4)).
  Definition test_mixed_radix_5xn_correct : res unit :=
    each (seq 1 6) (fun height => check (mixed_radix_5xn (dht_naive height)) (height * 5)).
  Definition test_mixed_radix_6xn_correct : res unit :=
    each (seq 1 6) (fun height => check (mixed_radix_6xn (dht_naive height)) (height * 6)).

  (** radix4.rs:465-480 test_radix4_correct *)
  Definition test_radix4_correct : res unit :=
    each (seq 2 5) (fun power2 =>
      let len := 2 ^ power2 in
      dht <- radix4 len ;;
      let control_dht := mixed_radix_4xn (dht_naive (len / 4)) in
      _ <- check control_dht len ;;
      check dht len).

  (** split_radix.rs:170-184 test_split_radix_correct *)
  Definition test_split_radix_correct : res unit :=
    each (seq 1 29) (fun quarter_len =>
      dht <- split_radix (dht_naive quarter_len) (dht_naive (quarter_len * 2)) ;;
      check dht (quarter_len * 4)).

  (** raders_algorithm.rs:238-252 test_raders_correct *)
  Definition test_raders_correct (m : profile) : res unit :=
    each (seq 3 7) (fun len =>
      if miller_rabin (N.of_nat len) then
        dht <- raders m (dht_naive (len - 1)) ;;
        check dht len
      else Ok tt).

  (** radix5.rs:226-287 test_reversal_property.  [twiddle.im * a + twiddle.re * b] *)
  Definition twiddled (twiddle : cplx T) (a b : T) : T := im twiddle *! a +! re twiddle *! b.
  Definition test_reversal_property : res unit :=
    each (seq 1 19) (fun len =>
      let dht := dht_naive len in
      let input := signal len in
      (* radix5.rs:232-250 *)
      twiddled_buffer <- for_range 0 len (fun i twiddled_buffer =>
          let i_rev := (len - i) mod len in
          let twiddle := compute_dft_twiddle_forward i len in
          a <- idx input i ;; b <- idx input i_rev ;;
          set twiddled_buffer i (twiddled twiddle a b)) (repeat nzero len) ;;
      twiddled_buffer <- dht_process dht twiddled_buffer ;;
      reversed_buffer <- dht_process dht input ;;
      _ <- assert_close twiddled_buffer (rev reversed_buffer) ;;
      (* radix5.rs:253-285 *)
      twiddled_input <- dht_process dht input ;;
      twiddled_output <- for_range 0 len (fun i twiddled_output =>
          let i_rev := (len - i) mod len in
          let twiddle := compute_dft_twiddle_forward i len in
          a <- idx twiddled_input i ;; b <- idx twiddled_input i_rev ;;
          set twiddled_output i (twiddled twiddle a b)) (repeat nzero len) ;;
      twiddled_output2 <- for_range 0 (len / 2 + 1) (fun i twiddled_output2 =>
          let i_rev := (len - i) mod len in
          let twiddle := compute_dft_twiddle_forward i len in
          a <- idx twiddled_input i ;; b <- idx twiddled_input i_rev ;;
          twiddled_output2 <- set twiddled_output2 i (twiddled twiddle a b) ;;
          set twiddled_output2 i_rev (-! im twiddle *! b +! re twiddle *! a)) (repeat nzero len) ;;
      reversed_buffer <- dht_process dht (rev input) ;;
      _ <- assert_close twiddled_output reversed_buffer ;;
      assert_close twiddled_output2 reversed_buffer).

  (** [(&mut b[1..]).reverse()] *)
  Definition reverse_from_1 (b : list T) : res (list T) :=
    '(first, rest) <- split_at b 1 ;; Ok (first ++ rev rest).
  (** radix5.rs:291-307 test_double_reversal_property *)
  Definition test_double_reversal_property : res unit :=
    each (seq 2 8) (fun len =>
      let dht := dht_naive len in
      let input := signal len in
      control_buffer <- dht_process dht input ;;
      test_buffer <- reverse_from_1 input ;;
      test_buffer <- dht_process dht test_buffer ;;
      test_buffer <- reverse_from_1 test_buffer ;;
      assert_close control_buffer test_buffer).
End Tests.

(** butterflies.rs:584-603 test_butterfly_func!, at both types *)
Definition test_butterfly (signal32 : nat -> list f32) (signal64 : nat -> list f64) (L : libm)
    (butterfly : forall T, Num T -> Dht T) (size : nat) : res unit :=
  _ <- check_dht_algorithm (NT := Num_f32 L) signal32 (butterfly f32 (Num_f32 L)) size ;;
  check_dht_algorithm (NT := Num_f64 L) signal64 (butterfly f64 (Num_f64 L)) size.

(** ** dht_naive.rs:62-180, in f32 only *)
(** f32::cos and f32::sin *)
Record libm32 := Libm32 { lcos32 : f32 -> f32; lsin32 : f32 -> f32 }.
Definition f32_div (a b : f32) : f32 := @Bdiv 24 128 eq_refl eq_refl mode_NE a b.
(** std::f32::consts::PI = 13176795 / 2^22 *)
Definition f32_pi : f32 := binary_normalize 24 128 eq_refl eq_refl mode_NE 13176795 (-22) false.

Section NaiveTest.
  Context (L : libm) (L32 : libm32) (signal : nat -> list f32).
  Local Hint Extern 0 (Num f32) => exact (Num_f32 L) : typeclass_instances.

  (** dht_naive.rs:73: [2f32 * (i * k) as f32 * PI / signal.len() as f32] *)
  Definition f32_angle (i k len : nat) : f32 :=
    f32_div (f32_mul (f32_mul (f32_of_usize 2) (f32_of_usize (i * k))) f32_pi) (f32_of_usize len).
  (** dht_naive.rs:69-80 dht *)
  Definition reference_dht (signal spectrum : list f32) : list f32 :=
    map (fun k =>
      fold_left (fun sum '(i, x) =>
        let angle := f32_angle i k (length signal) in
        let twiddle := f32_add (lcos32 L32 angle) (lsin32 L32 angle) in
        f32_add sum (f32_mul twiddle x)) (combine (seq 0 (length signal)) signal) (B754_zero false))
      (seq 0 (length spectrum)).

  (** dht_naive.rs:98-102: both buffers in chunks of [len] (their lengths are multiples of it) *)
  Fixpoint reference_chunks (fuel len : nat) (input expected_output : list f32) : list f32 :=
    match fuel with
    | 0 => expected_output
    | S fuel =>
      match input with
      | [] => expected_output
      | _ => reference_dht (firstn len input) (firstn len expected_output) ++
             reference_chunks fuel len (skipn len input) (skipn len expected_output)
      end
    end.

  (** dht_naive.rs:82-180 test_matches_dht *)
  Definition test_matches_dht : res unit :=
    let n := 4 in
    _ <- each (seq 1 19) (fun len =>
      let dht_instance : Dht f32 := dht_naive len in
      _ <- rassert (dht_len dht_instance =? len) ;;
      let input := signal (len * n) in
      let expected_output := reference_chunks n len input input in
      inplace_buffer <- dht_process dht_instance input ;;
      _ <- assert_close expected_output inplace_buffer ;;
      '(buffer, scratch) <- dht_process_with_scratch dht_instance input (repeat (nzero : f32) (dht_inplace_scratch dht_instance)) ;;
      _ <- assert_close expected_output buffer ;;
      let scratch := map (fun _ => f32_of_usize 100) scratch in
      buffer <- copy_from_slice buffer input ;;
      '(buffer, _) <- dht_process_with_scratch dht_instance buffer scratch ;;
      _ <- assert_close expected_output buffer ;;
      '(_, outofplace_output, _) <- dht_process_oop dht_instance input expected_output [] ;;
      assert_close expected_output outofplace_output) ;;
    let zero_dht : Dht f32 := dht_naive 0 in
    _ <- dht_process zero_dht [] ;;
    _ <- dht_process_with_scratch zero_dht [] [] ;;
    _ <- dht_process_oop zero_dht [] [] [] ;;
    Ok tt.
End NaiveTest.
