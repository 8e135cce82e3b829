(** * Proofs of the properties in PropsStable.v *)
From Verif Require Export PropsRmsProof.
From Verif Require Import Lemmas RealDHT DHTTheory L2 FloatTree TreeProof Contract.
From Coq Require Import Reals Lra Lia List.
Local Open Scope R_scope.

Section Stable.
  Context {T : Type} (F : fmt T).

  Lemma dist_nrm n (a b : list R) : length a = n -> distance a b = nrm n (fun j => nth j a 0 - nth j b 0).
  Proof. intros L. unfold distance, nrm, ss. now rewrite L. Qed.
  Lemma nth_dhts n (a : list R) k : length a = n -> (k < n)%nat -> nth k (dht_spec a) 0 = dhtf n (fun j => nth j a 0) k.
  Proof. intros L H. rewrite nth_dht_spec by lia. now rewrite dht_at_dhtf, L. Qed.
  Lemma nrm_dhtf n u : nrm n (dhtf n u) = sqrt (INR n) * nrm n u.
  Proof. unfold nrm. rewrite ss_dhtf. apply sqrt_mult; [apply pos_INR|apply ss0]. Qed.

  Lemma isometry n (a b : list R) : length a = n -> length b = n ->
    distance (dht_spec a) (dht_spec b) = sqrt (INR n) * distance a b.
  Proof.
    intros La Lb. rewrite (dist_nrm n) by (now rewrite dht_spec_length). rewrite (dist_nrm n a b La).
    rewrite <- nrm_dhtf. apply nrm_ext. intros k Hk. rewrite dhtf_sub. now rewrite !(nth_dhts n).
  Qed.
  Lemma dist_triangle n (a b c : list R) : length a = n -> length b = n -> distance a c <= distance a b + distance b c.
  Proof.
    intros La Lb. rewrite !(dist_nrm n) by assumption.
    pose proof (minkowski n (fun j => nth j a 0 - nth j b 0) (fun j => nth j b 0 - nth j c 0)) as M.
    rewrite (nrm_ext n _ (fun j => nth j a 0 - nth j c 0)) in M by (intros; ring). exact M.
  Qed.
  Lemma dist_sym n (a b : list R) : length a = n -> length b = n -> distance a b = distance b a.
  Proof. intros La Lb. rewrite !(dist_nrm n) by assumption. unfold nrm, ss. f_equal. apply rsum_ext. intros. ring. Qed.

  Lemma C75_backward_proof d r C : rms_close F d r C -> exists f, transforms d f /\
    forall x, length x = dht_len d -> Forall (ffin F) x -> C * (sqrt (INR (dht_len d)) * scale F x) <= fhi F ->
      exists x', length x' = dht_len d /\ dht_spec x' = map (fval F) (f x) /\ distance x' (map (fval F) x) <= (r - 1) * scale F x.
  Proof.
    intros (Hr & HC & f & O & E). exists f. split; [exact O|]. intros x Lx Fx Hc. set (n := dht_len d) in *.
    destruct (E x Lx Fx Hc) as [_ D]. assert (Lf : length (f x) = n) by (now apply (tr_len _ _ O)).
    set (y := map (fval F) (f x)) in *. assert (Ly : length y = n) by (unfold y; now rewrite map_length).
    destruct (Nat.eq_dec n 0) as [Z|Z].
    { exists nil. destruct y as [|v y]; [|simpl in Ly; lia]. split; [now rewrite Z|]. split; [reflexivity|].
      unfold distance. simpl. rewrite sqrt_0. apply Rmult_le_pos; [lra|apply sqrt_pos]. }
    set (x' := map (fun v => / INR n * v) (dht_spec y)).
    assert (L' : length x' = n) by (unfold x'; now rewrite map_length, dht_spec_length).
    assert (n1 : 1 <= INR n) by (apply INR1; lia).
    assert (E' : dht_spec x' = y).
    { apply (nth_ext _ _ 0 0); [now rewrite dht_spec_length, Ly|]. rewrite dht_spec_length, L'. intros k Hk.
      rewrite (nth_dhts n) by assumption. rewrite (dhtf_ext n _ (fun j => / INR n * dhtf n (fun i => nth i y 0) j + 0 * dhtf n (fun i => nth i y 0) j)).
      - rewrite dhtf_lin, dhtf_twice by lia. field. lra.
      - intros j Hj. unfold x'. rewrite (nth_indep _ 0 (/ INR n * 0)) by (rewrite map_length, dht_spec_length; lia).
        rewrite (map_nth (fun v => / INR n * v)). rewrite (nth_dhts n) by lia. ring. }
    exists x'. split; [exact L'|]. split; [exact E'|].
    assert (s1 : 1 <= sqrt (INR n)) by (apply sqrt1; lia).
    apply (Rmult_le_reg_l (sqrt (INR n))); [lra|]. rewrite <- (isometry n) by (rewrite ?map_length; auto). rewrite E'.
    eapply Rle_trans; [exact D|]. right. ring.
  Qed.

  Lemma C75_continuous_proof d r C : rms_close F d r C -> exists f, transforms d f /\
    forall x y, length x = dht_len d -> length y = dht_len d -> Forall (ffin F) x -> Forall (ffin F) y ->
      C * (sqrt (INR (dht_len d)) * scale F x) <= fhi F -> C * (sqrt (INR (dht_len d)) * scale F y) <= fhi F ->
      distance (map (fval F) (f x)) (map (fval F) (f y)) <=
      sqrt (INR (dht_len d)) * (distance (map (fval F) x) (map (fval F) y) + (r - 1) * (scale F x + scale F y)).
  Proof.
    intros (Hr & HC & f & O & E). exists f. split; [exact O|]. intros x y Lx Ly Fx Fy Hx Hy. set (n := dht_len d) in *.
    destruct (E x Lx Fx Hx) as [_ Dx]. destruct (E y Ly Fy Hy) as [_ Dy].
    assert (LX : length (f x) = n) by (now apply (tr_len _ _ O)). assert (LY : length (f y) = n) by (now apply (tr_len _ _ O)).
    pose proof (dist_triangle n (map (fval F) (f x)) (dht_spec (map (fval F) x)) (map (fval F) (f y))) as T1.
    pose proof (dist_triangle n (dht_spec (map (fval F) x)) (dht_spec (map (fval F) y)) (map (fval F) (f y))) as T2.
    rewrite map_length, dht_spec_length, map_length in T1. rewrite !dht_spec_length, !map_length in T2. specialize (T1 LX Lx). specialize (T2 Lx Ly).
    rewrite (dist_sym n (dht_spec (map (fval F) y)) (map (fval F) (f y))) in T2 by (rewrite ?dht_spec_length, map_length; auto).
    rewrite (isometry n) in T2 by (rewrite map_length; auto). lra.
  Qed.

  Lemma lincomb_nth a b x y j : (j < length x)%nat -> nth j (lincomb a b x y) 0 = a * nth j x 0 + b * nth j y 0.
  Proof. intros H. unfold lincomb. now rewrite nth_map_seq. Qed.
  Lemma lincomb_length a b x y : length (lincomb a b x y) = length x.
  Proof. unfold lincomb. now rewrite map_length, seq_length. Qed.
  Lemma nrm_abs n c f : nrm n (fun j => c * f j) = Rabs c * nrm n f.
  Proof. unfold nrm. rewrite ss_scal, sqrt_mult; [|apply sq0|apply ss0]. f_equal. apply sqrt_Rsqr_abs. Qed.

  Lemma C75_linear_proof d r C : rms_close F d r C -> exists f, transforms d f /\
    forall a b x y z, length x = dht_len d -> length y = dht_len d -> map (fval F) z = lincomb a b (map (fval F) x) (map (fval F) y) ->
      Forall (ffin F) x -> Forall (ffin F) y -> Forall (ffin F) z ->
      C * (sqrt (INR (dht_len d)) * scale F x) <= fhi F -> C * (sqrt (INR (dht_len d)) * scale F y) <= fhi F ->
      C * (sqrt (INR (dht_len d)) * scale F z) <= fhi F ->
      distance (map (fval F) (f z)) (lincomb a b (map (fval F) (f x)) (map (fval F) (f y))) <=
      (r - 1) * (sqrt (INR (dht_len d)) * (scale F z + Rabs a * scale F x + Rabs b * scale F y)).
  Proof.
    intros (Hr & HC & f & O & E). exists f. split; [exact O|]. intros a b x y z Lx Ly Ez Fx Fy Fz Hx Hy Hz. set (n := dht_len d) in *.
    assert (Lz : length z = n) by (rewrite <- (map_length (fval F)), Ez, lincomb_length, map_length; auto).
    destruct (E x Lx Fx Hx) as [_ Dx]. destruct (E y Ly Fy Hy) as [_ Dy]. destruct (E z Lz Fz Hz) as [_ Dz].
    assert (LX : length (f x) = n) by (now apply (tr_len _ _ O)). assert (LY : length (f y) = n) by (now apply (tr_len _ _ O)).
    assert (LZ : length (f z) = n) by (now apply (tr_len _ _ O)).
    rewrite Ez, dht_spec_linear in Dz by (rewrite !map_length; lia).
    rewrite (dist_nrm n) in Dx, Dy, Dz |- * by (now rewrite map_length).
    set (X := map (fval F) (f x)) in *. set (Y := map (fval F) (f y)) in *. set (Z := map (fval F) (f z)) in *.
    set (A := dht_spec (map (fval F) x)) in *. set (B := dht_spec (map (fval F) y)) in *.
    assert (LXX : length X = n) by (unfold X; now rewrite map_length).
    assert (LAA : length A = n) by (unfold A; now rewrite dht_spec_length, map_length).
    rewrite (nrm_ext n _ (fun j => (nth j Z 0 - (a * nth j A 0 + b * nth j B 0)) + (- a * (nth j X 0 - nth j A 0) + - b * (nth j Y 0 - nth j B 0)))).
    2:{ intros j Hj. rewrite lincomb_nth by lia. ring. }
    rewrite (nrm_ext n _ (fun j => nth j Z 0 - (a * nth j A 0 + b * nth j B 0))) in Dz.
    2:{ intros j Hj. rewrite lincomb_nth by lia. ring. }
    eapply Rle_trans; [apply minkowski|]. 
    eapply Rle_trans; [apply Rplus_le_compat_l, minkowski|]. rewrite !nrm_abs, !Rabs_Ropp.
    pose proof (Rmult_le_compat_l _ _ _ (Rabs_pos a) Dx). pose proof (Rmult_le_compat_l _ _ _ (Rabs_pos b) Dy). lra.
  Qed.
End Stable.
