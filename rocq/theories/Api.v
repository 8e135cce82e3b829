(** * Specification vocabulary: what a caller of the [Dht] trait observes *)
From Verif Require Export Trait Naive Butterflies MixedRadix Nxn Radix4 SplitRadix Raders.

Section Api.
  Context {T : Type} {NT : Num T}.

  (** [xs] are the chunks of a correctly sized buffer of [d] *)
  Definition chunks_of (n : nat) (xs : list (list T)) : Prop :=
    xs <> [] /\ Forall (fun x => length x = n) xs.

  (** [transforms d f]: through both processing methods [d] replaces every chunk [x] of a correctly sized
      buffer by [f x], never panicking; scratch (and the old contents of the output) do not matter, only the
      advertised part of scratch is written and every slice keeps its length.  A zero-length [d] does
      nothing. *)
  Record transforms (d : Dht T) (f : list T -> list T) : Prop := {
    tr_len : forall x, length x = dht_len d -> length (f x) = dht_len d;
    tr_inplace : forall xs scratch,
      0 < dht_len d -> chunks_of (dht_len d) xs -> dht_inplace_scratch d <= length scratch ->
      exists scratch',
        dht_process_with_scratch d (concat xs) scratch = Ok (concat (map f xs), scratch') /\
        length scratch' = length scratch /\
        skipn (dht_inplace_scratch d) scratch' = skipn (dht_inplace_scratch d) scratch;
    tr_oop : forall xs output scratch,
      0 < dht_len d -> chunks_of (dht_len d) xs -> length output = length (concat xs) ->
      dht_oop_scratch d <= length scratch ->
      exists input' scratch',
        dht_process_oop d (concat xs) output scratch = Ok (input', concat (map f xs), scratch') /\
        length input' = length (concat xs) /\
        length scratch' = length scratch /\
        skipn (dht_oop_scratch d) scratch' = skipn (dht_oop_scratch d) scratch;
    tr_zero : dht_len d = 0 ->
      (forall buffer scratch, dht_process_with_scratch d buffer scratch = Ok (buffer, scratch)) /\
      (forall input output scratch, dht_process_oop d input output scratch = Ok (input, output, scratch))
  }.

  (** the sizes under which the documentation promises that no panic happens *)
  Definition sized_inplace (d : Dht T) (buffer scratch : list T) : Prop :=
    dht_len d <= length buffer /\ length buffer mod dht_len d = 0 /\ dht_inplace_scratch d <= length scratch.
  Definition sized_oop (d : Dht T) (input output scratch : list T) : Prop :=
    length input = length output /\
    dht_len d <= length input /\ length input mod dht_len d = 0 /\ dht_oop_scratch d <= length scratch.

  (** an inner DHT whose scratch needs are met by the algorithms that reuse the buffers they were given *)
  Definition modest (d : Dht T) : Prop :=
    dht_inplace_scratch d <= dht_len d /\ dht_oop_scratch d = 0.

  (** the panics the documentation promises *)
  Definition checks_sizes (d : Dht T) : Prop :=
    (forall buffer scratch, ~ sized_inplace d buffer scratch ->
       dht_process_with_scratch d buffer scratch = Panic) /\
    (forall input output scratch, ~ sized_oop d input output scratch ->
       dht_process_oop d input output scratch = Panic).

  (** A [Dht] implementation written in safe Rust: it may return anything or panic or loop, but the slices it
      was lent keep their lengths and it performs no unchecked access. *)
  Record safe_rust (d : Dht T) : Prop := {
    sr_inplace : forall buffer scratch,
      dht_process_with_scratch d buffer scratch <> UB /\
      forall buffer' scratch', dht_process_with_scratch d buffer scratch = Ok (buffer', scratch') ->
        length buffer' = length buffer /\ length scratch' = length scratch;
    sr_oop : forall input output scratch,
      dht_process_oop d input output scratch <> UB /\
      forall input' output' scratch',
        dht_process_oop d input output scratch = Ok (input', output', scratch') ->
        length input' = length input /\ length output' = length output /\ length scratch' = length scratch
  }.
  (** ... and that never loops *)
  Definition terminating (d : Dht T) : Prop :=
    (forall buffer scratch, dht_process_with_scratch d buffer scratch <> Hang) /\
    (forall input output scratch, dht_process_oop d input output scratch <> Hang).

  (** Which leaves and lengths an instance may be assembled from: instances written by the user, lengths of
      [Radix4] and lengths of [RadersAlgorithm]. *)
  Record allowed := {
    al_user : Dht T -> Prop;
    al_radix4 : nat -> Prop;
    al_rader : nat -> Prop
  }.

  (** Every instance obtainable from the public constructors by finite nesting (src/scalar/mod.rs) *)
  Inductive assembled (m : profile) (A : allowed) : Dht T -> Prop :=
  | as_user d : al_user A d -> assembled m A d
  | as_naive n : assembled m A (dht_naive n)
  | as_bf1 : assembled m A butterfly1
  | as_bf2 : assembled m A butterfly2
  | as_bf3 : assembled m A butterfly3
  | as_bf4 : assembled m A butterfly4
  | as_bf5 : assembled m A butterfly5
  | as_bf6 : assembled m A butterfly6
  | as_bf8 : assembled m A butterfly8
  | as_bf9 : assembled m A butterfly9
  | as_bf16 : assembled m A butterfly16
  | as_mixed dw dh : assembled m A dw -> assembled m A dh -> assembled m A (mixed_radix dw dh)
  | as_2xn d : assembled m A d -> assembled m A (mixed_radix_2xn d)
  | as_3xn d : assembled m A d -> assembled m A (mixed_radix_3xn d)
  | as_4xn d : assembled m A d -> assembled m A (mixed_radix_4xn d)
  | as_5xn d : assembled m A d -> assembled m A (mixed_radix_5xn d)
  | as_6xn d : assembled m A d -> assembled m A (mixed_radix_6xn d)
  | as_split dq dh d : assembled m A dq -> assembled m A dh -> split_radix dq dh = Ok d -> assembled m A d
  | as_radix4 len d : radix4 len = Ok d -> al_radix4 A len -> assembled m A d
  | as_rader d D : assembled m A d -> raders m d = Ok D -> al_rader A (dht_len D) -> assembled m A D.

  (** the library's constructors over the user's instances [P]; Rader's algorithm at lengths up to 2^32 *)
  Definition over (P : Dht T -> Prop) : allowed :=
    {| al_user := P;
       al_radix4 := fun _ => True;
       al_rader := fun p => (N.of_nat p <= 2 ^ 32)%N |}.
  (** the library alone *)
  Definition library : allowed := over (fun _ => False).
  (** a user's instance the whole library can be built on *)
  Definition well_behaved (d : Dht T) : Prop := (exists f, transforms d f) /\ modest d.
End Api.
Arguments allowed T : clear implicits.

(** ** chunk iteration *)
Section Visit.
  Context {T S : Type}.
  (** hand the chunks [xs] to [fn] one after the other, threading its state *)
  Fixpoint visit (fn : list T -> S -> res (list T * S)) (xs : list (list T)) (st : S)
    : res (list (list T) * S) :=
    match xs with
    | [] => Ok ([], st)
    | x :: t =>
      '(y, st1) <- fn x st ;;
      '(ys, st2) <- visit fn t st1 ;;
      Ok (y :: ys, st2)
    end.
  (** the same for pairs of chunks *)
  Fixpoint visit2 (fn : list T -> list T -> S -> res (list T * list T * S))
           (xs : list (list T * list T)) (st : S) : res (list (list T * list T) * S) :=
    match xs with
    | [] => Ok ([], st)
    | (x1, x2) :: t =>
      '(y1, y2, st1) <- fn x1 x2 st ;;
      '(ys, st2) <- visit2 fn t st1 ;;
      Ok ((y1, y2) :: ys, st2)
    end.
End Visit.
