(** * Model of benches/bench_dht.rs

    [b.iter(f)] calls [f] as often as the harness likes: a parameter [count].  What is measured (time) is not modelled;
    the element type, f32 in the file, is arbitrary.  The model's lengths are unbounded. *)
From Verif Require Export Naive Butterflies MixedRadix Nxn Radix4 SplitRadix Raders.
From Coq Require Import NArith.

Section Bench.
  Context {T : Type} {NT : Num T}.

  (** bench_dht.rs:13-24 Noop *)
  Definition noop (len : nat) : Dht T :=
    mkDht len len 0 (fun buffer scratch => Ok (buffer, scratch)) (fun input output scratch => Ok (input, output, scratch)).

  (** [b.iter(|| dht.process_with_scratch(&mut buffer, &mut scratch))] *)
  Definition bench_iter (count : nat) (dht : Dht T) (buffer scratch : list T) : res unit :=
    _ <- for_each (seq 0 count) (fun _ '(buffer, scratch) => dht_process_with_scratch dht buffer scratch) (buffer, scratch) ;;
    Ok tt.
  (** the three lines that end most benchmarks, e.g. bench_dht.rs:33-35 *)
  Definition bench_inplace (count : nat) (dht : Dht T) : res unit :=
    bench_iter count dht (repeat nzero (dht_len dht)) (repeat nzero (dht_inplace_scratch dht)).

  (** bench_dht.rs:26-36 *)
  Definition bench_mixed_radix_noop (count width height : nat) : res unit :=
    bench_inplace count (mixed_radix (noop width) (noop height)).

  (** bench_dht.rs:60-69 *)
  Definition bench_4xn_noop (count height : nat) : res unit := bench_inplace count (mixed_radix_4xn (noop height)).

  (** bench_dht.rs:81-90; the recursion divides the length *)
  Fixpoint make_4xn_radix4_go (fuel len : nat) : res (Dht T) :=
    match fuel with
    | 0 => Hang
    | S f =>
      if (len =? 0) || (len =? 1) then Panic
      else if len =? 2 then Ok butterfly2
      else if len =? 4 then Ok butterfly4
      else if len =? 8 then Ok butterfly8
      else if len =? 16 then Ok butterfly16
      else d <- make_4xn_radix4_go f (len / 4) ;; Ok (mixed_radix_4xn d)
    end.
  Definition make_4xn_radix4 (len : nat) : res (Dht T) := make_4xn_radix4_go (S len) len.
  (** bench_dht.rs:92-99 *)
  Definition bench_4xn_radix4 (count len : nat) : res unit :=
    dht <- make_4xn_radix4 len ;; bench_inplace count dht.

  (** bench_dht.rs:114-121 *)
  Definition bench_direct_radix4 (count len : nat) : res unit :=
    dht <- radix4 len ;; bench_inplace count dht.

  (** bench_dht.rs:136-154; usize::trailing_zeros of 0 is 64 *)
  Definition usize_trailing_zeros (n : nat) : nat := if n =? 0 then 64 else trailing_zeros n.
  Fixpoint make_splitradix_go (fuel index : nat) (transforms : list (Dht T)) : res (list (Dht T)) :=
    match fuel with
    | 0 => Hang
    | S f =>
      if length transforms <=? index then
        i <- usub (length transforms) 2 ;;
        quarter <- idx transforms i ;;
        j <- usub (length transforms) 1 ;;
        half <- idx transforms j ;;
        d <- split_radix quarter half ;;
        make_splitradix_go f index (transforms ++ [d])
      else Ok transforms
    end.
  Definition make_splitradix (len : nat) : res (Dht T) :=
    let index := usize_trailing_zeros len in
    transforms <- make_splitradix_go (S index) index [butterfly1; butterfly2; butterfly4; butterfly8; butterfly16] ;;
    last <- usub (length transforms) 1 ;;
    idx transforms last.
  (** bench_dht.rs:157-165 *)
  Definition bench_splitradix (count len : nat) : res unit :=
    dht <- make_splitradix len ;;
    _ <- rassert (dht_len dht =? len) ;;
    bench_inplace count dht.

  (** bench_dht.rs:179-186 *)
  Fixpoint make_3xn_radix3_go (fuel len : nat) : res (Dht T) :=
    match fuel with
    | 0 => Hang
    | S f =>
      if (len =? 0) || (len =? 1) then Panic
      else if len =? 3 then Ok butterfly3
      else if len =? 9 then Ok butterfly9
      else d <- make_3xn_radix3_go f (len / 3) ;; Ok (mixed_radix_3xn d)
    end.
  Definition make_3xn_radix3 (len : nat) : res (Dht T) := make_3xn_radix3_go (S len) len.
  (** bench_dht.rs:188-196 *)
  Definition bench_3xn_radix3 (count len : nat) : res unit :=
    dht <- make_3xn_radix3 len ;; _ <- rassert (dht_len dht =? len) ;; bench_inplace count dht.

  (** bench_dht.rs:208-214 *)
  Fixpoint make_5xn_radix5_go (fuel len : nat) : res (Dht T) :=
    match fuel with
    | 0 => Hang
    | S f =>
      if (len =? 0) || (len =? 1) then Panic
      else if len =? 5 then Ok butterfly5
      else d <- make_5xn_radix5_go f (len / 5) ;; Ok (mixed_radix_5xn d)
    end.
  Definition make_5xn_radix5 (len : nat) : res (Dht T) := make_5xn_radix5_go (S len) len.
  (** bench_dht.rs:216-224 *)
  Definition bench_5xn_radix5 (count len : nat) : res unit :=
    dht <- make_5xn_radix5 len ;; _ <- rassert (dht_len dht =? len) ;; bench_inplace count dht.

  (** bench_dht.rs:234-240 *)
  Fixpoint make_6xn_radix6_go (fuel len : nat) : res (Dht T) :=
    match fuel with
    | 0 => Hang
    | S f =>
      if (len =? 0) || (len =? 1) then Panic
      else if len =? 6 then Ok butterfly6
      else d <- make_6xn_radix6_go f (len / 6) ;; Ok (mixed_radix_6xn d)
    end.
  Definition make_6xn_radix6 (len : nat) : res (Dht T) := make_6xn_radix6_go (S len) len.
  (** bench_dht.rs:242-250 *)
  Definition bench_6xn_radix6 (count len : nat) : res unit :=
    dht <- make_6xn_radix6 len ;; _ <- rassert (dht_len dht =? len) ;; bench_inplace count dht.

  (** bench_dht.rs:259-268 *)
  Definition bench_raders_noop (m : profile) (count len : nat) : res unit :=
    n <- usub len 1 ;; dht <- raders m (noop n) ;; bench_inplace count dht.

  (** bench_dht.rs:278-287 *)
  Definition bench_raders_power2 (m : profile) (count len : nat) : res unit :=
    n <- usub len 1 ;; inner <- radix4 n ;; dht <- raders m inner ;; bench_inplace count dht.

  (** bench_dht.rs:293-298, 299-304 *)
  Definition bench_butterfly3 (count : nat) : res unit := bench_iter count butterfly3 (repeat nzero (dht_len (T := T) butterfly3 * 100)) [].
  Definition bench_butterfly6 (count : nat) : res unit := bench_iter count butterfly6 (repeat nzero (dht_len (T := T) butterfly6 * 100)) [].
End Bench.
