(** * The constructors with machine arithmetic: usize overflow and the limit on allocations

    The constructors in the other model files compute with unbounded numbers.  Here every usize operation of every
    [new] is checked (Debug: overflow panics, Release: it wraps), and every Vec of more than isize::MAX bytes panics
    ("capacity overflow").  [size] is size_of::<T>(), so a Complex<T> takes [2 * size] bytes.  Running out of memory
    below that limit aborts the process and is not modelled.  usize has 32 or 64 bits, depending on the target. *)
From Verif Require Export Naive Butterflies MixedRadix Nxn Radix4 SplitRadix Raders FloatSpec.
From Coq Require Import NArith.

(** the targets: how many bits usize has *)
Inductive width := W32 | W64.
Existing Class width.
(** 2^32 or 2^64 *)
Definition span {W : width} : N := match W with W32 => 4294967296 | W64 => 18446744073709551616 end.

Section New.
  Context {W : width} {T : Type} `{Num T}.
  Variables (m : profile) (size : N).

  (** the result [v] of a usize operation *)
  Definition usize (v : N) : res N :=
    if (v <? span)%N then Ok v
    else match m with Debug => Panic | Release => Ok (v mod span)%N end.
  (** [a + b] and [a * b] on usize *)
  Definition uadd (a b : nat) : res nat := v <- usize (N.of_nat a + N.of_nat b) ;; Ok (N.to_nat v).
  Definition umul (a b : nat) : res nat := v <- usize (N.of_nat a * N.of_nat b) ;; Ok (N.to_nat v).
  (** [(a * b) % len] on usize, [len] a StrengthReducedUsize (see [mul_mod], Raders.v) *)
  Definition index_step (a b len : nat) : res nat :=
    v <- usize (N.of_nat a * N.of_nat b) ;; Ok (N.to_nat (v mod N.of_nat len)).
  (** a Vec of [n] elements of [bytes] bytes; isize::MAX is [span / 2 - 1] *)
  Definition alloc (bytes : N) (n : nat) : res unit :=
    rassert (N.of_nat n * bytes <=? span / 2 - 1)%N.

  (** the elements pushed by a loop, in order *)
  Fixpoint push_all {A B : Type} (f : A -> res B) (l : list A) : res (list B) :=
    match l with
    | [] => Ok []
    | x :: t => v <- f x ;; r <- push_all f t ;; Ok (v :: r)
    end.
  (** as above when each iteration pushes several *)
  Definition push_lists {A B : Type} (f : A -> res (list B)) (l : list A) : res (list B) :=
    r <- push_all f l ;; Ok (concat r).

  (** [compute_dft_twiddle_inverse(a * 8 + len, len * 8) * root2] *)
  Definition eighth_turn (a len : nat) : res (cplx T) :=
    i <- umul a 8 ;;
    i <- uadd i len ;;
    n <- umul len 8 ;;
    Ok (cscale (compute_dft_twiddle_inverse i n) nroot_half).

  (** dht_naive.rs:27-34 *)
  Definition naive_new (len : nat) : res (Dht T) :=
    _ <- alloc size len ;;
    Ok (dht_naive len).

  (** mixed_radix.rs:45-113 *)
  Definition mixed_new (width_dht height_dht : Dht T) : res (Dht T) :=
    let width := dht_len width_dht in
    let height := dht_len height_dht in
    len <- umul width height ;;
    row_limit <- uadd (width / 2) 1 ;;
    column_limit <- uadd (height / 2) 1 ;;
    capacity <- umul row_limit column_limit ;;
    _ <- alloc (2 * size) capacity ;;
    (* the number of elements pushed, checked before they are computed *)
    _ <- alloc (2 * size) ((row_limit - 1) * (column_limit - 1)) ;;
    twiddles <- push_lists (fun row =>
        push_all (fun column => a <- umul row column ;; eighth_turn a len) (seq 1 (column_limit - 1)))
      (seq 1 (row_limit - 1)) ;;
    let height_inplace_scratch := dht_inplace_scratch height_dht in
    let width_inplace_scratch := dht_inplace_scratch width_dht in
    let width_outofplace_scratch := dht_oop_scratch width_dht in
    let max_inner_inplace_scratch := Nat.max height_inplace_scratch width_inplace_scratch in
    let outofplace_scratch_len :=
      if len <? max_inner_inplace_scratch then max_inner_inplace_scratch else 0 in
    inplace_scratch_len <- uadd len
      (Nat.max (if len <? height_inplace_scratch then height_inplace_scratch else 0) width_outofplace_scratch) ;;
    Ok (boilerplate_dht len inplace_scratch_len outofplace_scratch_len
          (mixed_inplace width_dht height_dht width height twiddles)
          (mixed_oop width_dht height_dht width height twiddles)).

  (** The common text of the five MixedRadixNxn::new: [capacity] and [table] get [height / 2] (which is
      [twiddle_limit - 1]; [twiddle_limit = height / 2 + 1] cannot overflow) *)
  Definition nxn_new (k : nat) (capacity : nat -> res nat) (table : nat -> nat -> res (list (cplx T)))
             (apply : nat -> list (cplx T) -> list T -> res (list T)) (height_dht : Dht T) : res (Dht T) :=
    let height := dht_len height_dht in
    len <- umul k height ;;
    capacity <- capacity (height / 2) ;;
    _ <- alloc (2 * size) capacity ;;
    _ <- alloc (2 * size) (height / 2) ;;     (* at least one push for each column *)
    twiddles <- table (height / 2) len ;;
    let height_inplace_scratch := dht_inplace_scratch height_dht in
    let outofplace_scratch_len := if len <? height_inplace_scratch then height_inplace_scratch else 0 in
    inplace_scratch_len <- uadd len (if len <? height_inplace_scratch then height_inplace_scratch else 0) ;;
    Ok (boilerplate_dht len inplace_scratch_len outofplace_scratch_len
          (nxn_inplace k height_dht height (apply height twiddles))
          (nxn_oop k height_dht height (apply height twiddles))).

  (** radix2.rs:22-74; capacity [twiddle_limit - 1] *)
  Definition radix2_new : Dht T -> res (Dht T) :=
    nxn_new 2 (fun half => Ok half)
      (fun half len => push_all (fun column => Ok (compute_dft_twiddle_inverse column len)) (seq 1 half))
      radix2_apply.
  (** radix3.rs:25-80; capacity [(twiddle_limit - 1) * 2] *)
  Definition radix3_new : Dht T -> res (Dht T) :=
    nxn_new 3 (fun half => umul half 2)
      (fun half len => push_all (fun column => a <- umul column 1 ;; eighth_turn a len) (seq 1 half))
      (radix3_apply bf3_new).
  (** radix4.rs:22-75; capacity [twiddle_limit * 2] *)
  Definition radix4xn_new : Dht T -> res (Dht T) :=
    nxn_new 4 (fun half => limit <- uadd half 1 ;; umul limit 2)
      (fun half len => push_lists (fun column =>
           a <- umul 1 column ;; b <- umul 2 column ;;
           Ok [compute_dft_twiddle_inverse a len; compute_dft_twiddle_inverse b len]) (seq 1 half))
      radix4_apply.
  (** radix5.rs:25-81; capacity [(twiddle_limit - 1) * 2] *)
  Definition radix5_new : Dht T -> res (Dht T) :=
    nxn_new 5 (fun half => umul half 2)
      (fun half len => push_lists (fun column =>
           a <- umul column 1 ;; v <- eighth_turn a len ;;
           b <- umul column 2 ;; w <- eighth_turn b len ;;
           Ok [v; w]) (seq 1 half))
      (radix5_apply bf5_new).
  (** radix6.rs:25-82; capacity [3 * (column_limit - 1)] *)
  Definition radix6_new : Dht T -> res (Dht T) :=
    nxn_new 6 (fun half => umul 3 half)
      (fun half len => push_lists (fun column =>
           a <- umul 1 column ;; v <- eighth_turn a len ;;
           b <- umul 2 column ;; w <- eighth_turn b len ;;
           c <- umul 3 column ;; x <- eighth_turn c len ;;
           Ok [v; w; x]) (seq 1 half))
      (radix6_apply bf3_new).

  (** split_radix.rs:21-46 *)
  Definition split_new (quarter_dht half_dht : Dht T) : res (Dht T) :=
    let quarter_len := dht_len quarter_dht in
    let half_len := dht_len half_dht in
    double <- umul quarter_len 2 ;;
    _ <- rassert (half_len =? double) ;;
    len <- umul quarter_len 4 ;;
    twiddle_limit <- uadd (len / 8) 1 ;;
    capacity <- umul twiddle_limit 2 ;;
    _ <- alloc (2 * size) capacity ;;
    twiddles <- push_lists (fun x =>
        a <- umul x 1 ;; b <- umul x 3 ;;
        Ok [compute_dft_twiddle_inverse a len; compute_dft_twiddle_inverse b len]) (seq 0 twiddle_limit) ;;
    Ok (boilerplate_dht len half_len 0
          (split_inplace quarter_dht half_dht len twiddles)
          (split_oop quarter_dht half_dht len twiddles)).

  (** radix4.rs:222-233 *)
  Fixpoint radix4_table_go (fuel len twiddle_stride : nat) : res (list (cplx T)) :=
    match fuel with
    | 0 => Hang
    | S f =>
      if 0 <? twiddle_stride then
        step <- umul twiddle_stride 4 ;;
        let num_rows := len / step in
        layer <- push_lists (fun i =>
          push_all (fun k => a <- umul i k ;; b <- umul a twiddle_stride ;;
                             Ok (compute_dft_twiddle_inverse b len)) (seq 1 2))
          (seq 1 (num_rows - 1)) ;;
        rest <- radix4_table_go f len (twiddle_stride / 4) ;;
        Ok (layer ++ rest)
      else Ok []
    end.
  (** radix4.rs:196-245 *)
  Definition radix4_new (len : nat) : res (Dht T) :=
    _ <- rassert (is_power_of_two len) ;;
    let '(base_len, base_dht) := radix4_base len in
    block <- umul base_len 4 ;;
    _ <- alloc (2 * size) len ;;
    twiddles <- radix4_table_go (S len) len (len / block) ;;
    Ok (boilerplate_dht len len 0
          (radix4_inplace len base_len base_dht twiddles)
          (radix4_oop len base_len base_dht twiddles)).

  (** raders_algorithm.rs:51-58 (as [raders_dht_input], Raders.v) *)
  Definition raders_inner_input (len primitive_root_inverse : nat) : res (list T) :=
    let inner_dht_len := len - 1 in
    let normalization_scale := nrecip inner_dht_len in
    '(inner_dht_input, _) <-
      for_range 0 inner_dht_len (fun j '(inner_dht_input, twiddle_input) =>
        let twiddle := compute_dht_twiddle twiddle_input len in
        inner_dht_input <- set inner_dht_input j (twiddle *! normalization_scale) ;;
        twiddle_input <- index_step twiddle_input primitive_root_inverse len ;;
        Ok (inner_dht_input, twiddle_input)) (repeat nzero inner_dht_len, 1) ;;
    Ok inner_dht_input.
  (** raders_algorithm.rs:29-98; [process] (lib.rs:31-34) allocates the inner scratch *)
  Definition raders_new (inner_dht : Dht T) : res (Dht T) :=
    let inner_dht_len := dht_len inner_dht in
    len <- uadd inner_dht_len 1 ;;
    _ <- rassert (miller_rabin (N.of_nat len)) ;;
    '(root, root_inv) <- raders_roots m len ;;
    _ <- alloc size inner_dht_len ;;
    inner_dht_input <- raders_inner_input len root_inv ;;
    _ <- alloc size (dht_inplace_scratch inner_dht) ;;
    inner_dht_input <- dht_process inner_dht inner_dht_input ;;
    twiddle_len <- uadd (length inner_dht_input / 2) 1 ;;
    _ <- alloc (2 * size) twiddle_len ;;
    twiddles <- raders_twiddles inner_dht_input ;;
    let required_inner_scratch := dht_inplace_scratch inner_dht in
    let extra_inner_scratch :=
      if required_inner_scratch <=? inner_dht_len then 0 else required_inner_scratch in
    inplace_scratch_len <- uadd inner_dht_len extra_inner_scratch ;;
    Ok (boilerplate_dht len inplace_scratch_len extra_inner_scratch
          (raders_inplace m inner_dht len root root_inv twiddles)
          (raders_oop m inner_dht len root root_inv twiddles)).

  (** run the constructors of a composition *)
  Fixpoint construct (t : tree) : res (Dht T) :=
    match t with
    | Naive n => naive_new n
    | Fly1 => Ok butterfly1 | Fly2 => Ok butterfly2 | Fly3 => Ok butterfly3 | Fly4 => Ok butterfly4 | Fly5 => Ok butterfly5
    | Fly6 => Ok butterfly6 | Fly8 => Ok butterfly8 | Fly9 => Ok butterfly9 | Fly16 => Ok butterfly16
    | Mixed w h => dw <- construct w ;; dh <- construct h ;; mixed_new dw dh
    | Two t => d <- construct t ;; radix2_new d
    | Three t => d <- construct t ;; radix3_new d
    | Four t => d <- construct t ;; radix4xn_new d
    | Five t => d <- construct t ;; radix5_new d
    | Six t => d <- construct t ;; radix6_new d
    | Split q h => dq <- construct q ;; dh <- construct h ;; split_new dq dh
    | Rad4 len => radix4_new len
    | Rader t => d <- construct t ;; raders_new d
    end.
End New.
