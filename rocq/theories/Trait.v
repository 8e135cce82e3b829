(** * Model of the [Dht] trait (src/lib.rs) and of the two macros of src/macros.rs. *)
From Verif Require Export Num ArrayUtils.

(** src/lib.rs:20-87 trait Dht (a trait object).  [dht_len] is what [len()] returns when a composite
    constructor queries it; both processing methods return the new contents of every slice they were
    given mutably. *)
Record Dht (T : Type) := mkDht {
  dht_len : nat;
  dht_inplace_scratch : nat;      (* get_inplace_scratch_len *)
  dht_oop_scratch : nat;          (* get_outofplace_scratch_len *)
  (* process_with_scratch buffer scratch -> (buffer', scratch') *)
  dht_process_with_scratch : list T -> list T -> res (list T * list T);
  (* process_outofplace_with_scratch input output scratch -> (input', output', scratch') *)
  dht_process_oop : list T -> list T -> list T -> res (list T * list T * list T)
}.
Arguments mkDht {T}.
Arguments dht_len {T}.
Arguments dht_inplace_scratch {T}.
Arguments dht_oop_scratch {T}.
Arguments dht_process_with_scratch {T}.
Arguments dht_process_oop {T}.

Section Trait.
  Context {T : Type} `{Num T}.

  (** src/lib.rs:31-34 Dht::process *)
  Definition dht_process (d : Dht T) (buffer : list T) : res (list T) :=
    '(buffer', _) <- dht_process_with_scratch d buffer (repeat nzero (dht_inplace_scratch d)) ;;
    Ok buffer'.

  (** src/lib.rs:93-118 dht_error_inplace ([%] panics on a zero divisor) *)
  Definition dht_error_inplace (expected_len actual_len expected_scratch actual_scratch : nat)
    : res unit :=
    _ <- rassert (expected_len <=? actual_len) ;;
    _ <- rassert (negb (expected_len =? 0)) ;;
    _ <- rassert (actual_len mod expected_len =? 0) ;;
    rassert (expected_scratch <=? actual_scratch).

  (** src/lib.rs:124-151 dht_error_outofplace *)
  Definition dht_error_outofplace
             (expected_len actual_input actual_output expected_scratch actual_scratch : nat)
    : res unit :=
    _ <- rassert (actual_input =? actual_output) ;;
    _ <- rassert (expected_len <=? actual_input) ;;
    _ <- rassert (negb (expected_len =? 0)) ;;
    _ <- rassert (actual_input mod expected_len =? 0) ;;
    rassert (expected_scratch <=? actual_scratch).

  (** src/macros.rs:1-85 boilerplate_dht_oop!.  [perform] is [perform_dht_out_of_place], which takes
      the input by shared reference and an empty scratch, and returns the new output. *)
  Definition boilerplate_dht_oop (len : nat) (perform : list T -> list T -> res (list T)) : Dht T :=
    mkDht len len 0
      (fun buffer scratch =>                       (* macros.rs:35-68 *)
         if len =? 0 then Ok (buffer, scratch) else
         if (length scratch <? len) || (length buffer <? len) then
           _ <- dht_error_inplace len (length buffer) len (length scratch) ;;
           Ok (buffer, scratch)
         else
           '(scr, rest) <- split_at scratch len ;;
           '(buffer', scr', ok) <- iter_chunks buffer len (fun chunk scr =>
               scr' <- perform chunk scr ;;
               chunk' <- copy_from_slice chunk scr' ;;
               Ok (chunk', scr')) scr ;;
           if ok then Ok (buffer', scr' ++ rest)
           else
             _ <- dht_error_inplace len (length buffer) len (length scr) ;;
             Ok (buffer', scr' ++ rest))
      (fun input output scratch =>                 (* macros.rs:4-34 *)
         if len =? 0 then Ok (input, output, scratch) else
         if (length input <? len) || negb (length output =? length input) then
           _ <- dht_error_outofplace len (length input) (length output) 0 0 ;;
           Ok (input, output, scratch)
         else
           '(input', output', _, ok) <-
              iter_chunks_zipped input output len (fun in_chunk out_chunk (u : unit) =>
                out' <- perform in_chunk out_chunk ;;
                Ok (in_chunk, out', u)) tt ;;
           if ok then Ok (input', output', scratch)
           else
             _ <- dht_error_outofplace len (length input) (length output) 0 0 ;;
             Ok (input', output', scratch)).

  (** src/macros.rs:88-188 boilerplate_dht!.  [inplace] is [perform_dht_inplace buffer scratch],
      [oop] is [perform_dht_out_of_place input output scratch]. *)
  Definition boilerplate_dht (len s o : nat)
             (inplace : list T -> list T -> res (list T * list T))
             (oop : list T -> list T -> list T -> res (list T * list T * list T)) : Dht T :=
    mkDht len s o
      (fun buffer scratch =>                       (* macros.rs:139-171 *)
         if len =? 0 then Ok (buffer, scratch) else
         if (length scratch <? s) || (length buffer <? len) then
           _ <- dht_error_inplace len (length buffer) s (length scratch) ;;
           Ok (buffer, scratch)
         else
           '(scr, rest) <- split_at scratch s ;;
           '(buffer', scr', ok) <- iter_chunks buffer len inplace scr ;;
           if ok then Ok (buffer', scr' ++ rest)
           else
             _ <- dht_error_inplace len (length buffer) s (length scr) ;;
             Ok (buffer', scr' ++ rest))
      (fun input output scratch =>                 (* macros.rs:91-138 *)
         if len =? 0 then Ok (input, output, scratch) else
         if (length scratch <? o) || (length input <? len) || negb (length output =? length input) then
           _ <- dht_error_outofplace len (length input) (length output) o (length scratch) ;;
           Ok (input, output, scratch)
         else
           '(scr, rest) <- split_at scratch o ;;
           '(input', output', scr', ok) <- iter_chunks_zipped input output len oop scr ;;
           if ok then Ok (input', output', scr' ++ rest)
           else
             _ <- dht_error_outofplace len (length input) (length output) o (length scr) ;;
             Ok (input', output', scr' ++ rest)).
End Trait.
