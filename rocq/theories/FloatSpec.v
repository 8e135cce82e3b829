(** * Specification vocabulary: rounded arithmetic

    [T]'s values read as real numbers, its operations as exact operations followed by a rounding: the standard
    model of floating point arithmetic, with gradual underflow and overflow. *)
From Verif Require Export Spec Api ConstSpec.
From Coq Require Import NArith.
Local Open Scope R_scope.

(** [fval v] is the real number a finite [v] stands for; products below [flo] underflow, results above [fhi]
    overflow; [fu], [ftau], [frho] bound the roundings *)
Record fmt (T : Type) := Fmt { fval : T -> R; ffin : T -> Prop; flo : R; fhi : R; fu : R; ftau : R; frho : R }.
Arguments fval {T}. Arguments ffin {T}. Arguments flo {T}. Arguments fhi {T}. Arguments fu {T}. Arguments ftau {T}. Arguments frho {T}.

(** a length that fits usize *)
Definition usz (n : nat) : Prop := (N.of_nat n < 2 ^ 64)%N.

(** sums and differences have relative error at most [fu] while they do not overflow; products too, unless they
    underflow; cosines and sines have absolute error at most [ftau], reciprocals relative error at most [ftau];
    the constant for sqrt(1/2) has relative error at most [frho] *)
Record rounded {T} (F : fmt T) (N : Num T) : Prop := {
  r_u : 0 <= fu F; r_tau : 0 <= ftau F; r_rho : 0 <= frho F;
  r_lo : 0 <= flo F; r_lo_small : flo F * 2 ^ 64 <= 1;
  r_hi : 2 * (1 + ftau F) * (1 + frho F) <= fhi F;
  r_zero : ffin F (@nzero T N) /\ fval F (@nzero T N) = 0;
  r_add : forall a b, ffin F a -> ffin F b -> Rabs (fval F a + fval F b) <= fhi F ->
    ffin F (@nadd T N a b) /\ Rabs (fval F (@nadd T N a b) - (fval F a + fval F b)) <= fu F * Rabs (fval F a + fval F b);
  r_sub : forall a b, ffin F a -> ffin F b -> Rabs (fval F a - fval F b) <= fhi F ->
    ffin F (@nsub T N a b) /\ Rabs (fval F (@nsub T N a b) - (fval F a - fval F b)) <= fu F * Rabs (fval F a - fval F b);
  r_mul : forall a b, ffin F a -> ffin F b -> Rabs (fval F a * fval F b) <= fhi F ->
    ffin F (@nmul T N a b) /\
    Rabs (fval F (@nmul T N a b) - fval F a * fval F b) <= fu F * Rmax (Rabs (fval F a * fval F b)) (flo F);
  r_opp : forall a, ffin F a -> ffin F (@nopp T N a) /\ fval F (@nopp T N a) = - fval F a;
  r_cos : forall s i n, (0 < n)%nat -> (i <= 2 * n)%nat -> usz n -> ffin F (@ncos T N s i n) /\
    Rabs (fval F (@ncos T N s i n) - cos ((if s then -1 else 1) * 2 * PI / INR n * INR i)) <= ftau F;
  r_sin : forall s i n, (0 < n)%nat -> (i <= 2 * n)%nat -> usz n -> ffin F (@nsin T N s i n) /\
    Rabs (fval F (@nsin T N s i n) - sin ((if s then -1 else 1) * 2 * PI / INR n * INR i)) <= ftau F;
  r_half : ffin F (@nhalf T N) /\ fval F (@nhalf T N) = / 2;
  r_root : ffin F (@nroot_half T N) /\ Rabs (fval F (@nroot_half T N) - rh) <= frho F * rh;
  r_recip : forall n, (0 < n)%nat -> usz n -> ffin F (@nrecip T N n) /\
    Rabs (fval F (@nrecip T N n) - / INR n) <= ftau F * / INR n
}.

(** sum_j max(|x[j]|, flo) *)
Definition size {T} (F : fmt T) (x : list T) : R :=
  rsum (length x) (fun j => Rmax (Rabs (nth j (map (fval F) x) 0)) (flo F)).

(** on every chunk of finite values too small to overflow, all outputs of [d] are finite and within
    (phi - 1) * G * size x of the exact transform *)
Definition approximates {T} (F : fmt T) (N : Num T) (d : Dht T) (phi G : R) : Prop :=
  1 <= phi /\ sqrt 2 <= G /\
  exists f, transforms d f /\
    forall x k, length x = dht_len d -> (k < dht_len d)%nat -> Forall (ffin F) x -> phi * (G * size F x) <= fhi F ->
      ffin F (nth k (f x) (@nzero T N)) /\
      Rabs (fval F (nth k (f x) (@nzero T N)) - dht_at (map (fval F) x) k) <= (phi - 1) * (G * size F x).

(** ** Trees: what the user composes from the public constructors *)
Inductive tree :=
| Naive (n : nat) | Fly1 | Fly2 | Fly3 | Fly4 | Fly5 | Fly6 | Fly8 | Fly9 | Fly16
| Mixed (w h : tree) | Two (t : tree) | Three (t : tree) | Four (t : tree) | Five (t : tree) | Six (t : tree)
| Split (q h : tree) | Rad4 (len : nat) | Rader (t : tree).

(** run the constructors *)
Fixpoint build {T} {NT : Num T} (m : profile) (t : tree) : res (Dht T) :=
  match t with
  | Naive n => Ok (dht_naive n)
  | Fly1 => Ok butterfly1 | Fly2 => Ok butterfly2 | Fly3 => Ok butterfly3 | Fly4 => Ok butterfly4 | Fly5 => Ok butterfly5
  | Fly6 => Ok butterfly6 | Fly8 => Ok butterfly8 | Fly9 => Ok butterfly9 | Fly16 => Ok butterfly16
  | Mixed w h => dw <- build m w ;; dh <- build m h ;; Ok (mixed_radix dw dh)
  | Two t => d <- build m t ;; Ok (mixed_radix_2xn d)
  | Three t => d <- build m t ;; Ok (mixed_radix_3xn d)
  | Four t => d <- build m t ;; Ok (mixed_radix_4xn d)
  | Five t => d <- build m t ;; Ok (mixed_radix_5xn d)
  | Six t => d <- build m t ;; Ok (mixed_radix_6xn d)
  | Split q h => dq <- build m q ;; dh <- build m h ;; split_radix dq dh
  | Rad4 len => radix4 len
  | Rader t => d <- build m t ;; raders m d
  end.

(** the length *)
Fixpoint tree_len (t : tree) : nat :=
  match t with
  | Naive n => n | Fly1 => 1 | Fly2 => 2 | Fly3 => 3 | Fly4 => 4 | Fly5 => 5 | Fly6 => 6 | Fly8 => 8 | Fly9 => 9 | Fly16 => 16
  | Mixed w h => tree_len w * tree_len h
  | Two t => 2 * tree_len t | Three t => 3 * tree_len t | Four t => 4 * tree_len t
  | Five t => 5 * tree_len t | Six t => 6 * tree_len t
  | Split q _ => tree_len q * 4 | Rad4 len => len | Rader t => tree_len t + 1
  end.

(** Radix4 only where it computes the transform (PropsExact.v, C10), Rader's algorithm where its root search is
    proved to work (PropsMath.v, C28) *)
Fixpoint in_range (t : tree) : Prop :=
  match t with
  | Mixed t1 t2 | Split t1 t2 => in_range t1 /\ in_range t2
  | Two t | Three t | Four t | Five t | Six t => in_range t
  | Rad4 len => (len <= 64)%nat
  | Rader t => in_range t /\ (N.of_nat (tree_len t + 1) <= 2 ^ 32)%N
  | _ => True
  end.

(** roundings in a row: exponents of 1+u, 1+tau and 1+rho *)
Fixpoint roundings (t : tree) : nat * nat * nat :=
  match t with
  | Naive n => (n + 2, 1, 0) | Fly1 => (0, 0, 0) | Fly2 => (1, 0, 0) | Fly3 => (4, 1, 0) | Fly4 => (2, 0, 0) | Fly5 => (5, 1, 0)
  | Fly6 => (7, 2, 0) | Fly8 => (5, 1, 0) | Fly9 => (9, 1, 0) | Fly16 => (6, 1, 0)
  | Mixed w h => let '(a, b, c) := roundings w in let '(a', b', c') := roundings h in (a + a' + 4, b + b' + 1, c + c' + 1)
  | Two t => let '(a, b, c) := roundings t in (a + 3, b + 1, c)
  | Three t => let '(a, b, c) := roundings t in (a + 8, b + 2, c + 1)
  | Four t => let '(a, b, c) := roundings t in (a + 4, b + 1, c)
  | Five t => let '(a, b, c) := roundings t in (a + 9, b + 2, c + 1)
  | Six t => let '(a, b, c) := roundings t in (a + 11, b + 3, c + 1)
  | Split q h => let '(a, b, c) := roundings q in let '(a', b', c') := roundings h in
                 (Nat.max (a' + 1) (a + 4), Nat.max b' (b + 1), Nat.max c' c)
  | Rad4 _ => (10, 2, 0)
  | Rader t => let '(a, b, c) := roundings t in (a + a + a + 6, b + b + b + 2, c + c + c)
  end%nat.

(** growth of the intermediate values against sum|x[j]| *)
Fixpoint gain (t : tree) : R :=
  match t with
  | Fly6 => 4 | Fly9 => 12
  | Mixed w h => 4 * gain w * gain h
  | Two t => 2 * gain t | Four t => 2 * gain t
  | Three t => 8 * gain t | Five t => 8 * gain t | Six t => 16 * gain t
  | Split q h => Rmax (gain h) (2 * gain q)
  | Rad4 _ => 4
  | Rader t => 4 * INR (tree_len t) * (gain t * gain t * gain t)
  | _ => 2
  end.

Definition tree_phi (u tau rho : R) (t : tree) : R :=
  let '(a, b, c) := roundings t in (1 + u) ^ a * (1 + tau) ^ b * (1 + rho) ^ c.

(** lengths fit usize with room for the eightfold length MixedRadix computes; the tables Rader's algorithm
    precomputes do not overflow [T] *)
Fixpoint representable {T} (F : fmt T) (t : tree) : Prop :=
  usz (8 * tree_len t) /\
  match t with
  | Mixed t1 t2 | Split t1 t2 => representable F t1 /\ representable F t2
  | Two t | Three t | Four t | Five t | Six t => representable F t
  | Rader t => representable F t /\
      (1 + fu F) ^ 4 * (1 + ftau F) ^ 2 * tree_phi (fu F) (ftau F) (frho F) t * (4 * gain t) <= fhi F
  | _ => True
  end.

(** the same restrictions as [in_range] for [assembled] (Api.v) *)
Definition ranged {T} : allowed T :=
  {| al_user := fun _ => False; al_radix4 := fun n => (n <= 64)%nat; al_rader := fun p => (N.of_nat p <= 2 ^ 32)%N |}.

(** transforming twice gives the length times the input, up to (phi^2 - 1) * n * G^2 * size x *)
Definition round_trip {T} (F : fmt T) (N : Num T) (d : Dht T) (phi G : R) : Prop :=
  exists f, transforms d f /\
    forall x k, length x = dht_len d -> (k < dht_len d)%nat -> Forall (ffin F) x ->
      phi * phi * (INR (dht_len d) * (G * G * size F x)) <= fhi F ->
      ffin F (nth k (f (f x)) (@nzero T N)) /\
      Rabs (fval F (nth k (f (f x)) (@nzero T N)) - INR (dht_len d) * fval F (nth k x (@nzero T N)))
        <= (phi * phi - 1) * (INR (dht_len d) * (G * G * size F x)).

(** integers of at most [B] in total *)
Definition integral {T} (F : fmt T) (B : R) (x : list T) : Prop :=
  Forall (fun v => ffin F v /\ exists z : Z, fval F v = IZR z) x /\ norm1 (map (fval F) x) <= B.
(** on integers [d] computes the transform exactly *)
Definition exact_on_integers {T} (F : fmt T) (B : R) (d : Dht T) : Prop :=
  exists f, transforms d f /\ forall x, length x = dht_len d -> integral F B x ->
    Forall (ffin F) (f x) /\ map (fval F) (f x) = dht_spec (map (fval F) x).
