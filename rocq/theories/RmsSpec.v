(** * Specification vocabulary: root-mean-square errors *)
From Verif Require Export FloatSpec.
Local Open Scope R_scope.

(** Euclidean length and distance *)
Definition norm2 (x : list R) : R := sqrt (rsum (length x) (fun j => nth j x 0 * nth j x 0)).
Definition distance (x y : list R) : R :=
  sqrt (rsum (length x) (fun j => (nth j x 0 - nth j y 0) * (nth j x 0 - nth j y 0))).

(** sqrt(sum_j (x[j]^2 + flo^2)) *)
Definition scale {T} (F : fmt T) (x : list T) : R :=
  sqrt (rsum (length x) (fun j => nth j (map (fval F) x) 0 * nth j (map (fval F) x) 0) + INR (length x) * (flo F * flo F)).

(** on every chunk of finite values too small to overflow, all outputs of [d] are finite and at distance at most
    (r - 1) sqrt n * scale x from the exact transform, whose length is sqrt n * norm2 x *)
Definition rms_close {T} (F : fmt T) (d : Dht T) (r C : R) : Prop :=
  1 <= r /\ 1 <= C /\
  exists f, transforms d f /\
    forall x, length x = dht_len d -> Forall (ffin F) x -> C * (sqrt (INR (dht_len d)) * scale F x) <= fhi F ->
      Forall (ffin F) (f x) /\
      distance (map (fval F) (f x)) (dht_spec (map (fval F) x)) <= (r - 1) * (sqrt (INR (dht_len d)) * scale F x).

(** 1 plus the relative error of one twiddle stage *)
Definition stage_mixed (u tau rho : R) : R := 1 + 8 * ((1 + rho) * ((1 + u) ^ 4 * (1 + tau)) - 1).
Definition stage_two (u tau : R) : R := 1 + 6 * ((1 + u) ^ 3 * (1 + tau) - 1).
Definition stage_four (u tau : R) : R := 1 + 8 * ((1 + u) ^ 4 * (1 + tau) - 1).
Definition stage_split (u tau : R) : R := 1 + 3 * ((1 + u) ^ 4 * (1 + tau) - 1).

(** inside Rader's algorithm: the factor the products round with, counting that of the precomputed table, and 1 plus
    the relative error of the spectrum before the second inner transform; [l] is the prime, [r] the ratio of the inner
    instance *)
Definition rader_products (u tau r : R) : R := (1 + u) ^ 6 * (1 + tau) ^ 2 * r.
Definition stage_rader (u tau : R) (l : nat) (r : R) : R :=
  r + (rader_products u tau r - 1) * (6 * r * sqrt (INR l) + 1).

(** 1 plus the relative error of a tree: stages multiply; the trees without stages count with their worst case
    error (C41), times sqrt n *)
Fixpoint ratio (u tau rho : R) (t : tree) : R :=
  let leaf t := 1 + (tree_phi u tau rho t - 1) * gain t * sqrt (INR (tree_len t)) in
  match t with
  | Mixed w h => ratio u tau rho h * (stage_mixed u tau rho * ratio u tau rho w)
  | Two t => ratio u tau rho t * stage_two u tau
  | Three t => ratio u tau rho t * (stage_mixed u tau rho * leaf Fly3)
  | Four t => ratio u tau rho t * stage_four u tau
  | Five t => ratio u tau rho t * (stage_mixed u tau rho * leaf Fly5)
  | Six t => ratio u tau rho t * (stage_mixed u tau rho * leaf Fly6)
  | Split q h => Rmax (ratio u tau rho h) (ratio u tau rho q) * stage_split u tau
  | Rader t => 1 + 3 / 2 * (ratio u tau rho t * stage_rader u tau (tree_len t + 1) (ratio u tau rho t) - 1)
  | _ => leaf t
  end.

(** how far below the overflow threshold sqrt n * scale x has to stay *)
Fixpoint headroom (u tau rho : R) (t : tree) : R :=
  let leaf t := tree_phi u tau rho t * gain t in
  match t with
  | Mixed w h => Rmax (headroom u tau rho h) (Rmax 8 (headroom u tau rho w) * stage_mixed u tau rho * ratio u tau rho h)
  | Two t => Rmax (headroom u tau rho t) (4 * stage_two u tau * ratio u tau rho t)
  | Three t => Rmax (headroom u tau rho t) (Rmax 8 (leaf Fly3) * stage_mixed u tau rho * ratio u tau rho t)
  | Four t => Rmax (headroom u tau rho t) (4 * stage_four u tau * ratio u tau rho t)
  | Five t => Rmax (headroom u tau rho t) (Rmax 8 (leaf Fly5) * stage_mixed u tau rho * ratio u tau rho t)
  | Six t => Rmax (headroom u tau rho t) (Rmax 8 (leaf Fly6) * stage_mixed u tau rho * ratio u tau rho t)
  | Split q h => Rmax 4 (Rmax (headroom u tau rho h) (headroom u tau rho q)) * stage_split u tau
  | Rader t => Rmax (6 * ratio u tau rho t * rader_products u tau (ratio u tau rho t))
                    (headroom u tau rho t * stage_rader u tau (tree_len t + 1) (ratio u tau rho t))
  | _ => leaf t
  end.

(** lengths fit usize with room for the eightfold length MixedRadix computes; the tables Rader's algorithm
    precomputes do not overflow [T] *)
Fixpoint storable {T} (F : fmt T) (t : tree) : Prop :=
  usz (8 * tree_len t) /\
  match t with
  | Mixed t1 t2 | Split t1 t2 => storable F t1 /\ storable F t2
  | Two t | Three t | Four t | Five t | Six t => storable F t
  | Rader t => storable F t /\
      3 * ((1 + fu F) ^ 2 * (1 + ftau F) ^ 2) * headroom (fu F) (ftau F) (frho F) t <= fhi F /\
      6 * ((1 + fu F) ^ 4 * (1 + ftau F) ^ 2) * ratio (fu F) (ftau F) (frho F) t <= fhi F
  | _ => True
  end.

(** Butterfly16 under k layers of MixedRadix4xn: length 16 * 4^k *)
Fixpoint fours (k : nat) : tree := match k with O => Fly16 | S k => Four (fours k) end.

(** split radix down to Butterfly8 and Butterfly16: lengths 8 * 2^k and 16 * 2^k *)
Fixpoint splits (k : nat) : tree * tree :=
  match k with O => (Fly8, Fly16) | S k => let (q, h) := splits k in (h, Split q h) end.

(** built from [t], [d] has length [n]; with exact transforms X below the overflow threshold by a factor of [C], all
    outputs are finite, at distance at most eps (|X| + n * flo) from X *)
Definition relative_error {T} (F : fmt T) (N : Num T) (m : profile) (t : tree) (n : nat) (eps C : R) : Prop :=
  exists d f, @build T N m t = Ok d /\ dht_len d = n /\ transforms d f /\
    forall x, length x = n -> Forall (ffin F) x ->
      let X := dht_spec (map (fval F) x) in
      C * (norm2 X + INR n * flo F) <= fhi F ->
      Forall (ffin F) (f x) /\ distance (map (fval F) (f x)) X <= eps * (norm2 X + INR n * flo F).
