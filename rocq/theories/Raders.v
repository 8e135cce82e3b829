(** * Model of src/scalar/raders_algorithm.rs *)
From Verif Require Export Trait MathUtils.

(** Dependency (crate num-integer, not in /repo): [i64::extended_gcd(a, b)] is the iterative
    extended Euclid; the loop state is (s.0, s.1, r.0, r.1) started at (0, 1, b, a), and the
    coefficient of [a] is the final s.1.  Only [gcd] and [x] are modelled ([y] is unused).  i64
    overflow of intermediate coefficients is not modelled. *)
Fixpoint ext_gcd_go (fuel : nat) (s0 s1 r0 r1 : Z) : res (Z * Z) :=
  match fuel with
  | 0 => Hang
  | S f =>
    if (r0 =? 0)%Z then Ok (r1, s1)
    else let q := (r1 ÷ r0)%Z in
         ext_gcd_go f (s1 - q * s0)%Z s0 (r1 - q * r0)%Z r0
  end.
(** fuel: each two steps halve r0, which is below 2^64 *)
Definition extended_gcd (a b : Z) : res (Z * Z) := ext_gcd_go 200 0 1 b a.

(** Dependency (crate primal-check, not in /repo): [miller_rabin] is documented to decide primality
    exactly for every u64.  Modelled by trial division up to the square root. *)
Definition miller_rabin (n : N) : bool :=
  (1 <? n)%N &&
  forallb (fun d => negb (n mod N.of_nat d =? 0)%N) (seq 2 (N.to_nat (N.sqrt n) - 1)).

(** [(a * b) % len] on usize (64 bit), through StrengthReducedUsize (crate strength_reduce, not in
    /repo, same value as [%]; [len] > 0 here). *)
Definition mul_mod (m : profile) (a b len : nat) : res nat :=
  v <- u64 m (N.of_nat a * N.of_nat b) ;; Ok (N.to_nat (v mod N.of_nat len)).

Section Raders.
  Context {T : Type} `{Num T}.

  (** raders_algorithm.rs:51-58 the reordered, normalised twiddles (input of the inner DHT) *)
  Definition raders_dht_input (m : profile) (len primitive_root_inverse : nat) : res (list T) :=
    let inner_dht_len := len - 1 in
    let normalization_scale := nrecip inner_dht_len in
    '(inner_dht_input, _) <-
      for_range 0 inner_dht_len (fun j '(inner_dht_input, twiddle_input) =>
        let twiddle := compute_dht_twiddle twiddle_input len in
        inner_dht_input <- set inner_dht_input j (twiddle *! normalization_scale) ;;
        twiddle_input <- mul_mod m twiddle_input primitive_root_inverse len ;;
        Ok (inner_dht_input, twiddle_input)) (repeat nzero inner_dht_len, 1) ;;
    Ok inner_dht_input.

  (** raders_algorithm.rs:63-75 *)
  Definition raders_twiddles (inner_dht_input : list T) : res (list (cplx T)) :=
    let n := length inner_dht_input in
    let twiddles := repeat (Cplx nzero nzero) (n / 2 + 1) in
    a0 <- idx inner_dht_input 0 ;;
    twiddles <- set twiddles 0 (Cplx a0 nzero) ;;
    twiddles <- for_range 1 (n / 2) (fun i twiddles =>
        i_rev <- usub n i ;;
        a <- idx inner_dht_input i ;;
        b <- idx inner_dht_input i_rev ;;
        set twiddles i (Cplx ((a +! b) *! nhalf) ((a -! b) *! nhalf))) twiddles ;;
    am <- idx inner_dht_input (n / 2) ;;
    set twiddles (n / 2) (Cplx am nzero).

  (** raders_algorithm.rs:100-159 perform_dht_inplace *)
  Definition raders_inplace (m : profile) (inner_dht : Dht T) (len root root_inv : nat)
             (twiddles : list (cplx T)) (buffer scratch : list T) : res (list T * list T) :=
    match buffer with
    | [] => Panic
    | buffer_first :: buffer =>
      let buffer_first_val := buffer_first in
      n <- usub len 1 ;;
      '(inner, extra_scratch) <- split_at scratch n ;;
      '(inner, _) <- for_range 0 (length inner) (fun j '(inner, input_index) =>
          k <- usub input_index 1 ;;
          buffer_element <- idx buffer k ;;
          inner <- set inner j buffer_element ;;
          input_index <- mul_mod m input_index root len ;;
          Ok (inner, input_index)) (inner, 1) ;;
      (* inner_scratch is extra_scratch, or buffer when extra_scratch is empty *)
      let run := fun (inner buffer extra_scratch : list T) =>
        if 0 <? length extra_scratch then
          '(i, e) <- dht_process_with_scratch inner_dht inner extra_scratch ;; Ok (i, buffer, e)
        else
          '(i, b) <- dht_process_with_scratch inner_dht inner buffer ;; Ok (i, b, extra_scratch) in
      '(inner, buffer, extra_scratch) <- run inner buffer extra_scratch ;;
      v0 <- idx inner 0 ;;
      let buffer_first := buffer_first +! v0 in
      t0 <- idx twiddles 0 ;;
      inner <- set inner 0 (v0 *! re t0) ;;
      let n := length inner in
      inner <- for_range 1 (n / 2) (fun i inner =>
          i_rev <- usub n i ;;
          input_fwd <- idx inner i ;;
          input_rev <- idx inner i_rev ;;
          twiddle <- idx twiddles i ;;
          inner <- set inner i (re twiddle *! input_fwd +! im twiddle *! input_rev) ;;
          set inner i_rev (re twiddle *! input_rev -! im twiddle *! input_fwd)) inner ;;
      inner <- (if n mod 2 =? 0 then
                  let mid_index := n / 2 in
                  v <- idx inner mid_index ;;
                  t <- idx twiddles mid_index ;;
                  set inner mid_index (v *! re t)
                else Ok inner) ;;
      v0 <- idx inner 0 ;;
      inner <- set inner 0 (v0 +! buffer_first_val) ;;
      '(inner, buffer, extra_scratch) <- run inner buffer extra_scratch ;;
      '(buffer, _) <- for_each inner (fun input_cell '(buffer, output_index) =>
          k <- usub output_index 1 ;;
          buffer <- set buffer k input_cell ;;
          output_index <- mul_mod m output_index root_inv len ;;
          Ok (buffer, output_index)) (buffer, 1) ;;
      Ok (buffer_first :: buffer, inner ++ extra_scratch)
    end.

  (** raders_algorithm.rs:161-227 perform_dht_out_of_place *)
  Definition raders_oop (m : profile) (inner_dht : Dht T) (len root root_inv : nat)
             (twiddles : list (cplx T)) (input output scratch : list T)
    : res (list T * list T * list T) :=
    match output, input with
    | output_first :: output, input_first :: input =>
      '(output, _) <- for_range 0 (length output) (fun j '(output, input_index) =>
          k <- usub input_index 1 ;;
          input_element <- idx input k ;;
          output <- set output j input_element ;;
          input_index <- mul_mod m input_index root len ;;
          Ok (output, input_index)) (output, 1) ;;
      '(output, input, scratch) <-
        (if 0 <? length scratch then
           '(o, s) <- dht_process_with_scratch inner_dht output scratch ;; Ok (o, input, s)
         else
           '(o, i) <- dht_process_with_scratch inner_dht output input ;; Ok (o, i, scratch)) ;;
      v0 <- idx output 0 ;;
      let output_first := input_first +! v0 in
      t0 <- idx twiddles 0 ;;
      input <- set input 0 (v0 *! re t0) ;;
      input <- for_range 1 (length output / 2) (fun i input =>
          i_rev <- usub (length output) i ;;
          input_fwd <- idx output i ;;
          input_rev <- idx output i_rev ;;
          twiddle <- idx twiddles i ;;
          input <- set input i (re twiddle *! input_fwd +! im twiddle *! input_rev) ;;
          set input i_rev (re twiddle *! input_rev -! im twiddle *! input_fwd)) input ;;
      input <- (if length input mod 2 =? 0 then
                  let mid_index := length input / 2 in
                  v <- idx output mid_index ;;
                  t <- idx twiddles mid_index ;;
                  set input mid_index (v *! re t)
                else Ok input) ;;
      v0 <- idx input 0 ;;
      input <- set input 0 (v0 +! input_first) ;;
      '(input, output, scratch) <-
        (if 0 <? length scratch then
           '(i, s) <- dht_process_with_scratch inner_dht input scratch ;; Ok (i, output, s)
         else
           '(i, o) <- dht_process_with_scratch inner_dht input output ;; Ok (i, o, scratch)) ;;
      '(output, _) <- for_each input (fun input_element '(output, output_index) =>
          k <- usub output_index 1 ;;
          output <- set output k input_element ;;
          output_index <- mul_mod m output_index root_inv len ;;
          Ok (output, output_index)) (output, 1) ;;
      Ok (input_first :: input, output_first :: output, scratch)
    | _, _ => Panic
    end.

  (** raders_algorithm.rs:36-47: the root and its inverse for a prime [len] *)
  Definition raders_roots (m : profile) (len : nat) : res (nat * nat) :=
    ro <- primitive_root m (N.of_nat len) ;;
    root <- (match ro with Some r => Ok r | None => Panic end) ;;
    '(_, x) <- extended_gcd (Z.of_N root) (Z.of_nat len) ;;
    let root_inv := if (0 <=? x)%Z then x else (x + Z.of_nat len)%Z in
    Ok (N.to_nat root, Z.to_nat root_inv).

  (** raders_algorithm.rs:29-98 RadersAlgorithm::new *)
  Definition raders (m : profile) (inner_dht : Dht T) : res (Dht T) :=
    let inner_dht_len := dht_len inner_dht in
    let len := inner_dht_len + 1 in
    _ <- rassert (miller_rabin (N.of_nat len)) ;;
    '(root, root_inv) <- raders_roots m len ;;
    inner_dht_input <- raders_dht_input m len root_inv ;;
    inner_dht_input <- dht_process inner_dht inner_dht_input ;;
    twiddles <- raders_twiddles inner_dht_input ;;
    let required_inner_scratch := dht_inplace_scratch inner_dht in
    let extra_inner_scratch :=
      if required_inner_scratch <=? inner_dht_len then 0 else required_inner_scratch in
    Ok (boilerplate_dht len (inner_dht_len + extra_inner_scratch) extra_inner_scratch
          (raders_inplace m inner_dht len root root_inv twiddles)
          (raders_oop m inner_dht len root root_inv twiddles)).
End Raders.
