(** * Specification vocabulary: two proposed sets of aliasing rules for Rust, for one memory cell

    Stacked Borrows (Jung, Dang, Kang, Dreyer, POPL 2020) and Tree Borrows (Villani, Hostert, Dreyer, Jung, PLDI 2025),
    for a cell of a type without interior mutability, and without protectors (which only last while the function
    that got the reference runs).  Neither set of rules is official. *)
From Coq Require Export List Arith Bool.
Import ListNotations.

Inductive access := Rd | Wr.

(** what a program does with the pointers to the cell; pointers are numbered *)
Inductive event :=
| RefShared (from to : nat)      (* & *from, and handing a & reference to a function *)
| RefMut (from to : nat)         (* &mut *from, and handing a &mut reference to a function *)
| RawConst (from to : nat)       (* from as *const T *)
| RawMut (from to : nat)         (* from as *mut T *)
| Use (a : access) (by_ : nat).  (* a read or write through the pointer *)

Definition run_events {S} (step : S -> event -> option S) (s : S) (es : list event) : option S :=
  fold_left (fun s e => match s with Some s => step s e | None => None end) es (Some s).

(** ** Stacked Borrows: the cell has a stack of pointers still usable, top first *)
Inductive stack_perm := Unique | SharedRW | SharedRO.
Definition stack := list (nat * stack_perm).

(** a read needs the pointer to be in the stack and removes the unique ones above it *)
Fixpoint sb_read (t : nat) (s : stack) : option stack :=
  match s with
  | [] => None
  | (t', p) :: s' =>
    if t =? t' then Some s else
    match sb_read t s' with
    | Some r => Some (match p with Unique => r | _ => (t', p) :: r end)
    | None => None
    end
  end.
(** a write needs it there with a permission to write and removes everything above it (above a shared one, the
    adjacent shared ones stay) *)
Fixpoint sb_write_go (t : nat) (s : stack) : option (stack * bool) :=
  match s with
  | [] => None
  | (t', p) :: s' =>
    if t =? t' then
      match p with Unique => Some (s, false) | SharedRW => Some (s, true) | SharedRO => None end
    else
      match sb_write_go t s', p with
      | Some (r, true), SharedRW => Some ((t', p) :: r, true)
      | Some (r, _), _ => Some (r, false)
      | None, _ => None
      end
  end.
Definition sb_write (t : nat) (s : stack) : option stack :=
  match sb_write_go t s with Some (r, _) => Some r | None => None end.

Definition push (t : nat) (p : stack_perm) (s : option stack) : option stack :=
  match s with Some s => Some ((t, p) :: s) | None => None end.
Definition sb_step (s : stack) (e : event) : option stack :=
  match e with
  | RefShared f t => push t SharedRO (sb_read f s)
  | RefMut f t => push t Unique (sb_write f s)
  | RawConst f t => push t SharedRO (sb_read f s)
  | RawMut f t => push t SharedRW (sb_write f s)
  | Use Rd t => sb_read t s
  | Use Wr t => sb_write t s
  end.

(** ** Tree Borrows: the cell has a tree of references with a permission each *)
Inductive tree_perm := Reserved | Active | Frozen | Disabled.
Record node := Node { node_id : nat; node_parent : option nat; node_perm : tree_perm }.
(** the nodes, and for every pointer the node it uses: a raw pointer uses that of its reference *)
Record borrows := Borrows { nodes : list node; names : list (nat * nat) }.

Definition find_node (ns : list node) (i : nat) : option node := find (fun n => node_id n =? i) ns.
(** is [i] the node [j] or above it? *)
Fixpoint above (fuel : nat) (ns : list node) (i j : nat) : bool :=
  (i =? j) ||
  match fuel with
  | 0 => false
  | S f => match find_node ns j with Some (Node _ (Some p) _) => above f ns i p | _ => false end
  end.
(** the effect of an access on the permission of a node, through it or a node below it (local) or not (foreign) *)
Definition transition (a : access) (local : bool) (p : tree_perm) : option tree_perm :=
  match a, local with
  | Rd, true => match p with Disabled => None | _ => Some p end
  | Wr, true => match p with Reserved | Active => Some Active | _ => None end
  | Rd, false => Some (match p with Active => Frozen | _ => p end)
  | Wr, false => Some Disabled
  end.
Fixpoint touch_nodes (ns : list node) (f : node -> option tree_perm) : option (list node) :=
  match ns with
  | [] => Some []
  | n :: r =>
    match f n, touch_nodes r f with
    | Some p, Some r => Some (Node (node_id n) (node_parent n) p :: r)
    | _, _ => None
    end
  end.
Definition tb_access (a : access) (i : nat) (b : borrows) : option borrows :=
  match find_node (nodes b) i with
  | None => None
  | Some _ =>
    match touch_nodes (nodes b)
            (fun n => transition a (above (length (nodes b)) (nodes b) (node_id n) i) (node_perm n)) with
    | Some ns => Some (Borrows ns (names b))
    | None => None
    end
  end.
Definition node_of (b : borrows) (t : nat) : option nat :=
  match find (fun x => fst x =? t) (names b) with Some (_, i) => Some i | None => None end.
(** a new reference is a new node below the old one; making it reads *)
Definition tb_ref (p : tree_perm) (f t : nat) (b : borrows) : option borrows :=
  match node_of b f with
  | None => None
  | Some i => tb_access Rd t (Borrows (Node t (Some i) p :: nodes b) ((t, t) :: names b))
  end.
Definition tb_step (b : borrows) (e : event) : option borrows :=
  match e with
  | RefShared f t => tb_ref Frozen f t b
  | RefMut f t => tb_ref Reserved f t b
  | RawConst f t | RawMut f t =>
    match node_of b f with Some i => Some (Borrows (nodes b) ((t, i) :: names b)) | None => None end
  | Use a t => match node_of b t with Some i => tb_access a i b | None => None end
  end.
(** the cell behind a mutable reference 0, not yet written through or already written through *)
Definition tb_start (p : tree_perm) : borrows := Borrows [Node 0 None p] [(0, 0)].

Definition accepted {S} (s : option S) : Prop := s <> None.
(** the cell behind a mutable reference 0 whose older pointers have other numbers *)
Definition sb_start (older : stack) : stack := (0, Unique) :: older.
Definition fresh (older : stack) : Prop := Forall (fun x => 10 < fst x) older.

(** no read after a write *)
Fixpoint reads_first (l : list access) : Prop :=
  match l with
  | [] => True
  | Rd :: r => reads_first r
  | Wr :: r => ~ In Rd r
  end.
