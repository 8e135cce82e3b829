(** * Specification vocabulary: circular convolution by three transforms *)
From Verif Require Export RoundSpec.
Local Open Scope R_scope.

(** what a caller of the library computes between the transforms, in the arithmetic of [T]: twice the transform of the
    convolution from the transforms [X] and [Y] (C25) *)
Definition combine_spectra {T} {N : Num T} (X Y : list T) : list T :=
  let n := length X in
  map (fun k => let k' := neg_idx n k in
         (nth k X nzero *! (nth k Y nzero +! nth k' Y nzero)) +! (nth k' X nzero *! (nth k Y nzero -! nth k' Y nzero))) (seq 0 n).

(** circular convolution of integers: sum_j x[j] y[(k-j) mod n] *)
Definition zconv (x y : list Z) : list Z :=
  let n := length x in
  map (fun k => fold_right Z.add 0%Z (map (fun j => nth j x 0%Z * nth ((k + (n - j)) mod n) y 0%Z)%Z (seq 0 n))) (seq 0 n).

(** built from [t], [d] has length [n]; for integers of magnitude at most [A] and [B], transforming both, combining,
    transforming again, dividing by 2n and rounding gives their circular convolution *)
Definition convolves {T} (F : fmt T) (N : Num T) (m : profile) (t : tree) (n : nat) (A B : R) : Prop :=
  exists d f, @build T N m t = Ok d /\ dht_len d = n /\ transforms d f /\
    forall x y zx zy, length x = n -> length y = n ->
      Forall2 (fun v z => ffin F v /\ fval F v = IZR z /\ Rabs (IZR z) <= A) x zx ->
      Forall2 (fun v z => ffin F v /\ fval F v = IZR z /\ Rabs (IZR z) <= B) y zy ->
      let c := f (@combine_spectra T N (f x) (f y)) in
      Forall (ffin F) c /\ map (fun v => nearest (fval F v / (2 * INR n))) c = zconv zx zy.
