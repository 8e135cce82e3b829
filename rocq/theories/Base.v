(** * Outcome monad, slices and loops used by every model file.

    Nothing here models a particular function of /repo; these are the Rust language features
    the code uses (checked and unchecked indexing, slicing, [for] loops). *)
From Coq Require Export List Arith Lia Bool.
Export ListNotations.

(** The outcome of running a piece of Rust code.
    [Ok a]: returned normally.  [Panic]: unwinding panic (failed assert, unwrap of None, checked
    index out of range, slice range error, usize underflow).  [UB]: an unchecked access left its
    slice (undefined behaviour).  [Hang]: the code does not terminate. *)
Inductive res (A : Type) : Type :=
| Ok (a : A)
| Panic
| UB
| Hang.
Arguments Ok {A} a.
Arguments Panic {A}.
Arguments UB {A}.
Arguments Hang {A}.

Definition bind {A B : Type} (m : res A) (k : A -> res B) : res B :=
  match m with
  | Ok a => k a
  | Panic => Panic
  | UB => UB
  | Hang => Hang
  end.

Declare Scope res_scope.
Delimit Scope res_scope with res.
Notation "x <- e ;; k" := (bind e (fun x => k))
  (at level 100, e at next level, right associativity) : res_scope.
Notation "' p <- e ;; k" := (bind e (fun p => k))
  (at level 100, p pattern, e at next level, right associativity) : res_scope.
Global Open Scope res_scope.

(** [assert!(b)] *)
Definition rassert (b : bool) : res unit := if b then Ok tt else Panic.

(** [a - b] on usize: panics on underflow (debug); every use is proved not to underflow, so the
    release-mode wrap-around is never observed either. *)
Definition usub (a b : nat) : res nat := if b <=? a then Ok (a - b) else Panic.

Section Slices.
  Context {T : Type}.

  (** pure list update; no-op out of range (only used behind a range check) *)
  Fixpoint upd (l : list T) (i : nat) (v : T) : list T :=
    match l, i with
    | [], _ => []
    | _ :: t, 0 => v :: t
    | x :: t, S j => x :: upd t j v
    end.

  (** [l[i]] (read) *)
  Definition idx (l : list T) (i : nat) : res T :=
    match nth_error l i with Some v => Ok v | None => Panic end.

  (** [l[i] = v] *)
  Definition set (l : list T) (i : nat) (v : T) : res (list T) :=
    if i <? length l then Ok (upd l i v) else Panic.

  (** [*l.get_unchecked(i)] *)
  Definition uidx (l : list T) (i : nat) : res T :=
    match nth_error l i with Some v => Ok v | None => UB end.

  (** [*l.get_unchecked_mut(i) = v] *)
  Definition uset (l : list T) (i : nat) (v : T) : res (list T) :=
    if i <? length l then Ok (upd l i v) else UB.

  (** [l.split_at_mut(m)]; also [&mut l[..m]] / [&mut l[m..]] together with the untouched rest *)
  Definition split_at (l : list T) (m : nat) : res (list T * list T) :=
    if m <=? length l then Ok (firstn m l, skipn m l) else Panic.

  (** [dst.copy_from_slice(src)]: the new contents of [dst] *)
  Definition copy_from_slice (dst src : list T) : res (list T) :=
    if length dst =? length src then Ok src else Panic.

  (** [l.chunks_exact(n)] as a list of full chunks (panics for n = 0; remainder dropped).
      [fuel] only has to be at least the number of chunks. *)
  Fixpoint chunks_go (fuel n : nat) (l : list T) : list (list T) :=
    match fuel with
    | 0 => []
    | S f => if n <=? length l then firstn n l :: chunks_go f n (skipn n l) else []
    end.
  Definition chunks_exact (n : nat) (l : list T) : res (list (list T)) :=
    if n =? 0 then Panic else Ok (chunks_go (length l) n l).
End Slices.

(** [for x in l { body }] where the body updates the state [s]. *)
Fixpoint for_each {A S : Type} (l : list A) (body : A -> S -> res S) (s : S) : res S :=
  match l with
  | [] => Ok s
  | a :: t => s' <- body a s ;; for_each t body s'
  end.

(** [for i in lo..hi { body }] *)
Definition for_range {S : Type} (lo hi : nat) (body : nat -> S -> res S) (s : S) : res S :=
  for_each (seq lo (hi - lo)) body s.
