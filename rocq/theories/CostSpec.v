(** * Vocabulary for property C72: operation counts and critical paths of straight-line programs *)
From Verif Require Export StraightSpec RmsSpec PlanSpec.
From Coq Require Import Bool Reals.

(** an operand at hand: a constant (computed by the constructor), an input, or an earlier result *)
Definition operand (x L : list expr) (e : expr) : Prop := fixed e \/ In e x \/ In e L.
(** one operation on such operands *)
Definition operation (x L : list expr) (e : expr) : Prop :=
  match e with
  | Plus a b | Minus a b | Times a b => operand x L a /\ operand x L b
  | Neg a => operand x L a
  | _ => False
  end.
(** at most [c] different additions, subtractions, multiplications and negations lead from [x] to [ys] *)
Definition computable (x : list expr) (c : nat) (ys : list expr) : Prop :=
  exists L, length L <= c /\ Forall (operation x L) L /\ Forall (operand x L) ys.
(** at most [n] operations in a row lead from [x] to [e] *)
Inductive deep (x : list expr) : nat -> expr -> Prop :=
| deep_free n e : fixed e \/ In e x -> deep x n e
| deep_plus n a b : deep x n a -> deep x n b -> deep x (S n) (Plus a b)
| deep_minus n a b : deep x n a -> deep x n b -> deep x (S n) (Minus a b)
| deep_times n a b : deep x n a -> deep x n b -> deep x (S n) (Times a b)
| deep_neg n a : deep x n a -> deep x (S n) (Neg a).

Definition inputs (n : nat) : list expr := map Var (seq 0 n).

(** operations of one instance, from those of its inner instances *)
Definition mixed_ops (w ow h oh : nat) : nat := w * oh + 8 * (w - 1) * (h / 2) + h * ow.
Fixpoint ops (t : tree) : nat :=
  match t with
  | Naive n => 2 * n * n
  | Fly1 => 0 | Fly2 => 2 | Fly3 => 8 | Fly4 => 8 | Fly5 => 24 | Fly6 => 28 | Fly8 => 24 | Fly9 => 56 | Fly16 => 76
  | Mixed w h => mixed_ops (tree_len w) (ops w) (tree_len h) (ops h)
  | Two t => 2 * ops t + 2 + 10 * (tree_len t / 2)
  | Four t => 4 * ops t + 8 + 34 * (tree_len t / 2)
  | Three t => mixed_ops 3 8 (tree_len t) (ops t)
  | Five t => mixed_ops 5 24 (tree_len t) (ops t)
  | Six t => mixed_ops 6 28 (tree_len t) (ops t)
  | Split q h => ops h + 2 * ops q + 12 * tree_len q
  | Rad4 len => match len with 1 => 0 | 2 => 2 | 4 => 8 | 8 => 24 | 16 => 76 | 32 => 223 | _ => 567 end
  | Rader t => 2 * ops t + 3 * tree_len t
  end.
(** operations in a row *)
Definition mixed_path (w pw h ph : nat) : nat := ph + (if (w <=? 1) || (h <=? 1) then 0 else 3) + pw.
Fixpoint path (t : tree) : nat :=
  match t with
  | Naive n => n + 1
  | Fly1 => 0 | Fly2 => 1 | Fly3 => 4 | Fly4 => 2 | Fly5 => 5 | Fly6 => 7 | Fly8 => 3 | Fly9 => 10 | Fly16 => 6
  | Mixed w h => mixed_path (tree_len w) (path w) (tree_len h) (path h)
  | Two t => path t + 3 | Four t => path t + 4
  | Three t => mixed_path 3 4 (tree_len t) (path t)
  | Five t => mixed_path 5 5 (tree_len t) (path t)
  | Six t => mixed_path 6 7 (tree_len t) (path t)
  | Split q h => Nat.max (1 + path h) (4 + path q)
  | Rad4 len => match len with 1 => 0 | 2 => 1 | 4 => 2 | 8 => 3 | 16 => 6 | 32 => 7 | _ => 10 end
  | Rader t => path t + 2 + path t
  end.

(** how many RadersAlgorithm lie inside each other *)
Fixpoint nested (t : tree) : nat :=
  match t with
  | Mixed t1 t2 | Split t1 t2 => Nat.max (nested t1) (nested t2)
  | Two t | Three t | Four t | Five t | Six t => nested t
  | Rader t => S (nested t)
  | _ => 0
  end.
Definition log2 (n : nat) : R := (ln (INR n) / ln 2)%R.
(** no inner instance, no DhtNaive *)
Definition leaf (t : tree) : Prop := match t with Fly1 | Fly2 | Fly3 | Fly4 | Fly5 | Fly6 | Fly8 | Fly9 | Fly16 | Rad4 _ => True | _ => False end.
