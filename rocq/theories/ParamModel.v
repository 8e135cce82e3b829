(** * Every function of the model respects related data *)
From Verif Require Export Param Api.
From Coq Require Import NArith ZArith.

Lemma coefs_additive {A B} {NA : Num A} {NB : Num B} (RC : A -> B -> Prop) : coefs RC -> additive RC RC.
Proof. intros [? ? ? ? ? ? ? ? ? ?]; constructor; auto. Qed.

(** two instances with the same sizes that respect [R] *)
Record alike {A B} (R : A -> B -> Prop) (d : Dht A) (d' : Dht B) : Prop := {
  ak_len : dht_len d = dht_len d';
  ak_ins : dht_inplace_scratch d = dht_inplace_scratch d';
  ak_oops : dht_oop_scratch d = dht_oop_scratch d';
  ak_inplace : forall b b' s s', Forall2 R b b' -> Forall2 R s s' ->
    rr (pr (Forall2 R) (Forall2 R)) (dht_process_with_scratch d b s) (dht_process_with_scratch d' b' s');
  ak_oop : forall i i' o o' s s', Forall2 R i i' -> Forall2 R o o' -> Forall2 R s s' ->
    rr (pr (pr (Forall2 R) (Forall2 R)) (Forall2 R)) (dht_process_oop d i o s) (dht_process_oop d' i' o' s')
}.

Inductive wr {A B} (R : A -> B -> Prop) : raw A -> raw B -> Prop :=
| wr_sep i i' o o' : Forall2 R i i' -> Forall2 R o o' -> wr R (Sep i o) (Sep i' o')
| wr_alias b b' : Forall2 R b b' -> wr R (Alias b) (Alias b').

Section Model.
  Context {A B : Type} {NA : Num A} {NB : Num B}.
  Variables (RC RD : A -> B -> Prop).
  Hypothesis HC : coefs RC.
  Hypothesis HD : additive RC RD.
  Notation L := (Forall2 RD).
  Notation LC := (Forall2 (cr RC)).

  Lemma cr_re c c' : cr RC c c' -> RC (re c) (re c').
  Proof. apply proj1. Qed.
  Lemma cr_im c c' : cr RC c c' -> RC (im c) (im c').
  Proof. apply proj2. Qed.
  Lemma cr_inv i n : cr RC (compute_dft_twiddle_inverse i n) (compute_dft_twiddle_inverse i n).
  Proof. split; apply HC. Qed.
  Lemma cr_fwd i n : cr RC (compute_dft_twiddle_forward i n) (compute_dft_twiddle_forward i n).
  Proof. split; apply HC. Qed.
  Lemma rc_dht i n : RC (compute_dht_twiddle i n) (compute_dht_twiddle i n).
  Proof. apply HC; apply HC. Qed.
  Lemma cr_scale c c' s s' : cr RC c c' -> RC s s' -> cr RC (cscale c s) (cscale c' s').
  Proof. intros [] ?. split; apply HC; auto. Qed.

  Ltac rct :=
    lazymatch goal with
    | |- RC (re _) _ => apply cr_re; rct
    | |- RC (im _) _ => apply cr_im; rct
    | |- RC (_ +! _) _ => apply (rc_add _ HC); rct
    | |- RC (_ -! _) _ => apply (rc_sub _ HC); rct
    | |- RC (_ *! _) _ => apply (rc_mul _ HC); rct
    | |- RC (-! _) _ => apply (rc_opp _ HC); rct
    | |- RC nzero _ => apply (rc_zero _ HC)
    | |- RC nhalf _ => apply (rc_half _ HC)
    | |- RC nroot_half _ => apply (rc_root_half _ HC)
    | |- RC (nrecip _) _ => apply (rc_recip _ HC)
    | |- RC (compute_dht_twiddle _ _) _ => apply rc_dht
    | |- cr RC (compute_dft_twiddle_inverse _ _) _ => apply cr_inv
    | |- cr RC (compute_dft_twiddle_forward _ _) _ => apply cr_fwd
    | |- cr RC (cscale _ _) _ => apply cr_scale; rct
    | |- cr RC (Cplx _ _) _ => split; cbn [re im]; rct
    | _ => assumption
    end.
  Ltac rdt :=
    lazymatch goal with
    | |- RD (_ +! _) _ => apply (rd_add _ _ HD); rdt
    | |- RD (_ -! _) _ => apply (rd_sub _ _ HD); rdt
    | |- RD (-! _) _ => apply (rd_opp _ _ HD); rdt
    | |- RD (_ *! _) _ => first [apply (rd_scale_l _ _ HD); [solve [rct]|rdt] | apply (rd_scale_r _ _ HD); [solve [rct]|rdt]]
    | |- RD nzero _ => apply (rd_zero _ _ HD)
    | _ => assumption
    end.
  (** lists *)
  Ltac lt :=
    lazymatch goal with
    | |- Forall2 _ (_ ++ _) _ => apply L_app; lt
    | |- Forall2 _ (_ :: _) _ => apply Forall2_cons; [el|lt]
    | |- Forall2 _ [] _ => apply Forall2_nil
    | |- Forall2 _ (repeat _ _) _ => apply L_repeat; el
    | |- Forall2 _ (seq _ _) _ => apply Forall2_eq
    | |- Forall2 _ (rev (seq _ _)) _ => apply Forall2_eq
    | |- Forall2 _ (combine _ _) _ => apply L_combine; lt
    | _ => eassumption
    end
  with el :=
    lazymatch goal with
    | |- pr _ _ (_, _) (_, _) => split; cbn [fst snd]; el
    | |- pr _ _ _ _ => split; cbn [fst snd]; el
    | |- _ = _ => ln
    | |- Forall2 _ _ _ => lt
    | |- RD _ _ => rdt
    | |- RC _ _ => rct
    | |- cr RC _ _ => rct
    | |- wr _ (Sep _ _) _ => apply wr_sep; lt
    | |- wr _ (Alias _) _ => apply wr_alias; lt
    | _ => eassumption
    end
  with ln :=
    solve [reflexivity | assumption | symmetry; assumption
      | repeat match goal with H : Forall2 _ ?l ?l' |- _ => is_var l'; rewrite <- ?(L_len H); clear H end; reflexivity ].
  (** the relation a value of this type is in *)
  Ltac canon X :=
    lazymatch X with
    | list A => constr:(Forall2 RD)
    | A => constr:(RD)
    | cplx A => constr:(cr RC)
    | list (cplx A) => constr:(Forall2 (cr RC))
    | list (list (cplx A)) => constr:(Forall2 (Forall2 (cr RC)))
    | raw A => constr:(wr RD)
    | prod ?Y ?Z => let y := canon Y in let z := canon Z in constr:(pr y z)
    | ?Y => constr:(@eq Y)
    end.
  Ltac open_rel :=
    repeat lazymatch goal with
    | H : pr _ _ ?p ?q |- _ => destruct p, q, H; cbn [fst snd] in *
    end; subst.
  Ltac go_with c :=
    cbv beta iota zeta;
    lazymatch goal with
    | |- rr _ (bind _ _) (bind _ _) =>
      first
      [ eapply rr_bind; [solve [c]|]; intros ? ? ?; open_rel; go_with c
      | lazymatch goal with |- rr _ (@bind ?X _ _ _) _ => let r := canon X in
          apply (rr_bind r); [go_with c|intros ? ? ?; open_rel; go_with c] end ]
    | |- rr _ (if ?b then _ else _) (if ?b' then _ else _) =>
      replace b' with b by ln; destruct b; go_with c
    | |- rr _ (Ok _) (Ok _) => cbn [rr]; try el
    | |- rr _ Panic Panic => exact I
    | |- rr _ Hang Hang => exact I
    | |- rr _ (@for_range ?S _ _ _ _) _ => let r := canon S in
        apply (rr_for_range r); [ln|ln|el|intros ? ? ? ?; open_rel; go_with c]
    | |- rr _ (@for_each _ ?S _ _ _) _ => let r := canon S in
        eapply (rr_for_each _ r); [lt|el|intros ? ? ? ? ? ?; open_rel; go_with c]
    | |- _ => try solve [c]
    end.
  Ltac base := idtac;
    lazymatch goal with
    | |- rr _ (idx _ _) _ => apply rr_idx; [lt|ln]
    | |- rr _ (uidx _ _) _ => apply rr_uidx; [lt|ln]
    | |- rr _ (set _ _ _) _ => apply rr_set; [lt|ln|el]
    | |- rr _ (uset _ _ _) _ => apply rr_uset; [lt|ln|el]
    | |- rr _ (usub _ _) _ => apply rr_usub; ln
    | |- rr _ (rassert _) _ => apply rr_rassert; ln
    | |- rr _ (split_at _ _) _ => apply rr_split_at; [lt|ln]
    | |- rr _ (copy_from_slice _ _) _ => apply rr_copy; lt
    | |- rr _ (chunks_exact _ _) _ => apply rr_chunks; [lt|ln]
    | |- rr _ (reverse_chunks _ _) _ => apply rr_reverse; [lt|ln]
    end.

  (** ** arrays *)
  Lemma rr_half_rev i i' o o' w h : L i i' -> L o o' -> rr L (transpose_half_rev_out i o w h) (transpose_half_rev_out i' o' w h).
  Proof. intros. unfold transpose_half_rev_out. go_with base. Qed.
  Lemma rr_transpose i i' o o' w h : L i i' -> L o o' -> rr L (transpose i o w h) (transpose i' o' w h).
  Proof. intros. unfold transpose. go_with base. Qed.

  (** ** the trait *)
  Lemma rr_error_inplace a b c d b' d' : b = b' -> d = d' -> rr eq (dht_error_inplace a b c d) (dht_error_inplace a b' c d').
  Proof. intros <- <-. apply rr_eq. Qed.
  Lemma rr_error_oop a b c d e b' c' e' : b = b' -> c = c' -> e = e' -> rr eq (dht_error_outofplace a b c d e) (dht_error_outofplace a b' c' d e').
  Proof. intros <- <- <-. apply rr_eq. Qed.
  Ltac tr := idtac;
    lazymatch goal with
    | |- rr _ (dht_error_inplace _ _ _ _) _ => apply rr_error_inplace; ln
    | |- rr _ (dht_error_outofplace _ _ _ _ _) _ => apply rr_error_oop; ln
    | |- rr _ (dht_process_with_scratch _ _ _) _ => eapply ak_inplace; [eassumption|lt|lt]
    | |- rr _ (dht_process_oop _ _ _ _) _ => eapply ak_oop; [eassumption|lt|lt|lt]
    | |- rr _ (transpose_half_rev_out _ _ _ _) _ => apply rr_half_rev; lt
    | |- rr _ (transpose _ _ _ _) _ => apply rr_transpose; lt
    | _ => base
    end.
  Lemma alike_oop len f f' :
    (forall i i' o o', L i i' -> L o o' -> rr L (f i o) (f' i' o')) ->
    alike RD (boilerplate_dht_oop len f) (boilerplate_dht_oop len f').
  Proof.
    intros H. constructor; auto; cbn [boilerplate_dht_oop dht_process_with_scratch dht_process_oop].
    - intros. go_with ltac:(first [tr | apply (rr_iter_chunks RD L); [ln|lt|lt|intros]; eapply rr_bind; [apply H; lt|]; intros; go_with tr]).
    - intros. go_with ltac:(first [tr | apply (rr_iter_zipped RD eq); [ln|lt|lt|ln|intros]; subst; eapply rr_bind; [apply H; lt|]; intros; go_with tr]).
  Qed.
  Lemma alike_dht len s o f f' g g' :
    (forall b b' s s', L b b' -> L s s' -> rr (pr L L) (f b s) (f' b' s')) ->
    (forall i i' o o' s s', L i i' -> L o o' -> L s s' -> rr (pr (pr L L) L) (g i o s) (g' i' o' s')) ->
    alike RD (boilerplate_dht len s o f g) (boilerplate_dht len s o f' g').
  Proof.
    intros H G. constructor; auto; cbn [boilerplate_dht dht_process_with_scratch dht_process_oop].
    - intros. go_with ltac:(first [tr | apply (rr_iter_chunks RD L); [ln|lt|lt|intros]; apply H; lt]).
    - intros. go_with ltac:(first [tr | apply (rr_iter_zipped RD L); [ln|lt|lt|lt|intros]; apply G; lt]).
  Qed.

  (** ** DhtNaive *)
  Lemma rc_naive_twiddles n : Forall2 RC (naive_twiddles n) (naive_twiddles n).
  Proof. apply L_map. intros. rct. Qed.
  Lemma rr_naive n i i' o o' : L i i' -> L o o' -> rr L (naive_perform (naive_twiddles n) i o) (naive_perform (naive_twiddles n) i' o').
  Proof.
    intros. pose proof (rc_naive_twiddles n). unfold naive_perform.
    set (t := @naive_twiddles A NA n) in *. set (t' := @naive_twiddles B NB n) in *. clearbody t t'. go_with tr.
  Qed.
  Lemma alike_naive n : alike RD (dht_naive n) (dht_naive n).
  Proof.
    unfold dht_naive. cbv zeta. rewrite (L_len (rc_naive_twiddles n)). apply alike_oop. intros. now apply rr_naive.
  Qed.

  (** ** butterflies *)
  Lemma rr_rload m m' i : wr RD m m' -> rr RD (rload m i) (rload m' i).
  Proof. destruct 1; simpl; now apply rr_uidx. Qed.
  Lemma rr_rstore m m' v v' i : wr RD m m' -> RD v v' -> rr (wr RD) (rstore m v i) (rstore m' v' i).
  Proof. destruct 1; intros; cbn [rstore]; go_with base. Qed.
  Definition kern (c : raw A -> res (raw A)) (c' : raw B -> res (raw B)) : Prop :=
    forall m m', wr RD m m' -> rr (wr RD) (c m) (c' m').
  Lemma rr_run_alias c c' b b' : kern c c' -> L b b' -> rr L (run_alias c b) (run_alias c' b').
  Proof. intros H Hb. unfold run_alias. eapply rr_bind; [apply H, wr_alias, Hb|]. destruct 1; simpl; auto. Qed.
  Lemma rr_run_sep c c' i i' o o' : kern c c' -> L i i' -> L o o' -> rr (pr L L) (run_sep c i o) (run_sep c' i' o').
  Proof. intros H Hi Ho. unfold run_sep. eapply rr_bind; [apply H, wr_sep; eauto|]. destruct 1; simpl; split; auto. Qed.
  Lemma alike_butterfly n c c' : kern c c' -> alike RD (boilerplate_butterfly n c) (boilerplate_butterfly n c').
  Proof.
    intros K. constructor; auto; cbn [boilerplate_butterfly dht_process_with_scratch dht_process_oop].
    - intros. go_with ltac:(first [tr | apply (rr_iter_chunks RD eq); [ln|lt|ln|intros]; subst; eapply rr_bind; [apply rr_run_alias; [exact K|lt]|]; intros; go_with tr]).
    - intros. go_with ltac:(first [tr | apply (rr_iter_zipped RD eq); [ln|lt|lt|ln|intros]; subst; eapply rr_bind; [apply rr_run_sep; [exact K|lt|lt]|]; intros; open_rel; go_with tr]).
  Qed.

  Lemma alike_bf1 : alike RD butterfly1 butterfly1.
  Proof. constructor; auto; intros; simpl; [split; auto|]. go_with tr. Qed.
  Lemma rr_strided1 a a' i j : L a a' -> rr L (strided1 a i j) (strided1 a' i j).
  Proof. intros. unfold strided1, bf2_strided. go_with tr. Qed.
  Lemma rr_strided2 a a' b b' i j : L a a' -> L b b' -> rr (pr L L) (strided2 a b i j) (strided2 a' b' i j).
  Proof. intros. unfold strided2, bf2_strided. go_with tr. Qed.
  Lemma rr_indexed b b' i j : L b b' -> rr L (bf2_indexed b i j) (bf2_indexed b' i j).
  Proof. intros. unfold bf2_indexed. go_with tr. Qed.
  Ltac bt := idtac;
    lazymatch goal with
    | |- rr _ (rload _ _) _ => apply rr_rload; el
    | |- rr _ (rstore _ _ _) _ => apply rr_rstore; el
    | |- rr _ (strided1 _ _ _) _ => apply rr_strided1; lt
    | |- rr _ (strided2 _ _ _ _) _ => apply rr_strided2; lt
    | |- rr _ (bf2_indexed _ _ _) _ => apply rr_indexed; lt
    | _ => tr
    end.
  Lemma kern2 : kern bf2_contig bf2_contig.
  Proof. intros m m' H. unfold bf2_contig. go_with bt. Qed.
  Lemma kern3 t t' : cr RC t t' -> kern (bf3_contig t) (bf3_contig t').
  Proof. intros Ht m m' H. unfold bf3_contig, bf2_strided. go_with bt. Qed.
  Lemma rr_arr2 a a' : L a a' -> rr L (bf2_array a) (bf2_array a').
  Proof. apply rr_run_alias, kern2. Qed.
  Lemma rr_arr3 t t' a a' : cr RC t t' -> L a a' -> rr L (bf3_array t a) (bf3_array t' a').
  Proof. intros. apply rr_run_alias; auto using kern3. Qed.
  Ltac bt2 := idtac;
    lazymatch goal with
    | |- rr _ (bf2_array _) _ => apply rr_arr2; lt
    | |- rr _ (bf3_array _ _) _ => apply rr_arr3; [el|lt]
    | _ => bt
    end.
  Lemma kern4 : kern bf4_contig bf4_contig.
  Proof. intros m m' H. unfold bf4_contig. go_with bt2. Qed.
  Lemma kern5 t t' : pr (cr RC) (cr RC) t t' -> kern (bf5_contig t) (bf5_contig t').
  Proof. intros Ht m m' H. open_rel. unfold bf5_contig. go_with bt2. Qed.
  Lemma kern6 t t' : cr RC t t' -> kern (bf6_contig t) (bf6_contig t').
  Proof. intros Ht m m' H. unfold bf6_contig. go_with bt2. Qed.
  Lemma rr_on_range a a' lo n f f' : L a a' -> (forall b b', L b b' -> rr L (f b) (f' b')) -> rr L (on_range a lo n f) (on_range a' lo n f').
  Proof. intros Ha Hf. unfold on_range. go_with ltac:(first [tr | apply Hf; lt]). Qed.
  Ltac bt3 := idtac;
    lazymatch goal with
    | |- rr _ (on_range _ _ _ bf2_array) _ => apply rr_on_range; [lt|exact rr_arr2]
    | _ => bt2
    end.
  Lemma kern8 t t' : RC t t' -> kern (bf8_contig t) (bf8_contig t').
  Proof. intros Ht m m' H. unfold bf8_contig. go_with bt3. Qed.
  Definition bf9r (s : @bf9 A) (s' : @bf9 B) : Prop :=
    RC (butterfly3_twiddle s) (butterfly3_twiddle s') /\ cr RC (bf9_twiddle1 s) (bf9_twiddle1 s') /\
    cr RC (bf9_twiddle2 s) (bf9_twiddle2 s') /\ cr RC (bf9_twiddle4 s) (bf9_twiddle4 s').
  Lemma kern9 s s' : bf9r s s' -> kern (bf9_contig s) (bf9_contig s').
  Proof. intros (H1 & H2 & H3 & H4) m m' H. unfold bf9_contig. go_with bt3. Qed.
  Lemma rr_arr4 a a' : L a a' -> rr L (bf4_array a) (bf4_array a').
  Proof. apply rr_run_alias, kern4. Qed.
  Lemma rr_arr5 t t' a a' : pr (cr RC) (cr RC) t t' -> L a a' -> rr L (bf5_array t a) (bf5_array t' a').
  Proof. intros. apply rr_run_alias; auto using kern5. Qed.
  Lemma rr_arr6 t t' a a' : cr RC t t' -> L a a' -> rr L (bf6_array t a) (bf6_array t' a').
  Proof. intros. apply rr_run_alias; auto using kern6. Qed.
  Lemma rr_arr8 t t' a a' : RC t t' -> L a a' -> rr L (bf8_array t a) (bf8_array t' a').
  Proof. intros. apply rr_run_alias; auto using kern8. Qed.
  Ltac bt4 := idtac;
    lazymatch goal with
    | |- rr _ (bf4_array _) _ => apply rr_arr4; lt
    | |- rr _ (bf5_array _ _) _ => apply rr_arr5; [el|lt]
    | |- rr _ (bf6_array _ _) _ => apply rr_arr6; [el|lt]
    | |- rr _ (bf8_array _ _) _ => apply rr_arr8; [el|lt]
    | _ => bt3
    end.
  Lemma kern16 t t' : pr RC (cr RC) t t' -> kern (bf16_contig t) (bf16_contig t').
  Proof. intros Ht m m' H. open_rel. unfold bf16_contig. go_with bt4. Qed.
  Lemma alike_bf2 : alike RD butterfly2 butterfly2.
  Proof. apply alike_butterfly, kern2. Qed.
  Lemma alike_bf3 : alike RD butterfly3 butterfly3.
  Proof. apply alike_butterfly, kern3. unfold bf3_new. rct. Qed.
  Lemma alike_bf4 : alike RD butterfly4 butterfly4.
  Proof. apply alike_butterfly, kern4. Qed.
  Lemma alike_bf5 : alike RD butterfly5 butterfly5.
  Proof. apply alike_butterfly, kern5. split; cbn [fst snd bf5_new]; rct. Qed.
  Lemma alike_bf6 : alike RD butterfly6 butterfly6.
  Proof. apply alike_butterfly, kern6. unfold bf3_new. rct. Qed.
  Lemma alike_bf8 : alike RD butterfly8 butterfly8.
  Proof. apply alike_butterfly, kern8. unfold bf8_new. rct. Qed.
  Lemma alike_bf9 : alike RD butterfly9 butterfly9.
  Proof. apply alike_butterfly, kern9. unfold bf9_new. cbv zeta. repeat split; cbn [butterfly3_twiddle bf9_twiddle1 bf9_twiddle2 bf9_twiddle4]; apply HC; apply HC. Qed.
  Lemma alike_bf16 : alike RD butterfly16 butterfly16.
  Proof. apply alike_butterfly, kern16. split; cbn [fst snd bf16_new]; [unfold bf8_new|]; rct. Qed.

  (** ** columns *)
  Lemma rr_row_get h b b' r c : L b b' -> rr RD (row_get h b r c) (row_get h b' r c).
  Proof. intros. unfold row_get. go_with tr. Qed.
  Lemma rr_row_set h b b' r c v v' : L b b' -> RD v v' -> rr L (row_set h b r c v) (row_set h b' r c v').
  Proof. intros. unfold row_set. go_with tr. Qed.
  Lemma rr_read_rows h b b' rs c : L b b' -> rr L (read_rows h b rs c) (read_rows h b' rs c).
  Proof.
    intros H. induction rs as [|r rs IH]; simpl; auto.
    go_with ltac:(first [exact IH | apply rr_row_get; lt | tr]).
  Qed.
  Lemma rr_read_col k h b b' c c' : L b b' -> c = c' -> rr L (read_col k h b c) (read_col k h b' c').
  Proof. intros H <-. now apply rr_read_rows. Qed.
  Lemma rr_write_col h b b' c c' v v' : L b b' -> c = c' -> L v v' -> rr L (write_col h b c v) (write_col h b' c' v').
  Proof.
    intros H <- Hv. unfold write_col. rewrite (L_len Hv).
    eapply (rr_for_each _ L); [lt|lt|]. intros. open_rel. apply rr_row_set; auto.
  Qed.
  Lemma rr_columns {X Y} (RX : X -> Y -> Prop) k h bf bf' tws tws' pair pair' o o' :
    (forall b b', L b b' -> rr L (bf b) (bf' b')) -> Forall2 RX tws tws' ->
    (forall t t' f f' r r', RX t t' -> L f f' -> L r r' -> rr (pr L L) (pair t f r) (pair' t' f' r')) -> L o o' ->
    rr L (columns_apply k h bf tws pair o) (columns_apply k h bf' tws' pair' o').
  Proof.
    intros Hb Ht Hp Ho. unfold columns_apply.
    go_with ltac:(first [apply rr_read_col; [lt|ln] | apply rr_write_col; [lt|ln|lt] | apply Hb; lt | apply Hp; el | tr]).
  Qed.

  Ltac two_lists :=
    intros; unfold bf2_strided;
    repeat match goal with
    | |- rr _ (match ?l with _ => _ end) _ => is_var l;
        match goal with H : Forall2 RD l ?l' |- _ => inversion H; clear H; subst; try exact I end
    end.
  Lemma rr_pair2 t t' f f' r r' : cr RC t t' -> L f f' -> L r r' -> rr (pr L L) (radix2_pair t f r) (radix2_pair t' f' r').
  Proof. unfold radix2_pair. two_lists. go_with bt4. Qed.
  Lemma rr_pair3 w w' t t' f f' r r' : cr RC w w' -> cr RC t t' -> L f f' -> L r r' -> rr (pr L L) (radix3_pair w t f r) (radix3_pair w' t' f' r').
  Proof. unfold radix3_pair. two_lists. go_with bt4. Qed.
  Lemma rr_pair4 t t' f f' r r' : LC t t' -> L f f' -> L r r' -> rr (pr L L) (radix4_pair t f r) (radix4_pair t' f' r').
  Proof. unfold radix4_pair. two_lists. go_with bt4. Qed.
  Lemma rr_pair5 w w' t t' f f' r r' : pr (cr RC) (cr RC) w w' -> LC t t' -> L f f' -> L r r' -> rr (pr L L) (radix5_pair w t f r) (radix5_pair w' t' f' r').
  Proof. unfold radix5_pair. two_lists. go_with bt4. Qed.
  Lemma rr_pair6 w w' t t' f f' r r' : cr RC w w' -> LC t t' -> L f f' -> L r r' -> rr (pr L L) (radix6_pair w t f r) (radix6_pair w' t' f' r').
  Proof. unfold radix6_pair. two_lists. go_with bt4. Qed.

  Definition resp (f : list A -> res (list A)) (f' : list B -> res (list B)) : Prop := forall b b', L b b' -> rr L (f b) (f' b').
  Lemma resp2 h t t' : LC t t' -> resp (radix2_apply h t) (radix2_apply h t').
  Proof. intros Ht b b' H. unfold radix2_apply. apply (rr_columns (cr RC)); auto using rr_arr2, rr_pair2. Qed.
  Lemma resp3 w w' h t t' : cr RC w w' -> LC t t' -> resp (radix3_apply w h t) (radix3_apply w' h t').
  Proof. intros Hw Ht b b' H. unfold radix3_apply. apply (rr_columns (cr RC)); auto using rr_arr3, rr_pair3. Qed.
  Lemma resp4 h t t' : LC t t' -> resp (radix4_apply h t) (radix4_apply h t').
  Proof.
    intros Ht b b' H. unfold radix4_apply. eapply rr_bind; [apply rr_chunks; eauto|]. intros.
    apply (rr_columns LC); auto using rr_arr4, rr_pair4.
  Qed.
  Lemma resp5 w w' h t t' : pr (cr RC) (cr RC) w w' -> LC t t' -> resp (radix5_apply w h t) (radix5_apply w' h t').
  Proof.
    intros Hw Ht b b' H. unfold radix5_apply. eapply rr_bind; [apply rr_chunks; eauto|]. intros.
    apply (rr_columns LC); auto using rr_arr5, rr_pair5.
  Qed.
  Lemma resp6 w w' h t t' : cr RC w w' -> LC t t' -> resp (radix6_apply w h t) (radix6_apply w' h t').
  Proof.
    intros Hw Ht b b' H. unfold radix6_apply. eapply rr_bind; [apply rr_chunks; eauto|]. intros.
    apply (rr_columns LC); auto using rr_arr6, rr_pair6.
  Qed.
  Section Nxn.
    Variables (d : Dht A) (d' : Dht B).
    Hypothesis Hd : alike RD d d'.
    Lemma alike_nxn k f f' : resp f f' -> alike RD (nxn k d f) (nxn k d' f').
    Proof.
      intros H. unfold nxn. cbv zeta. rewrite (ak_len _ _ _ Hd), (ak_ins _ _ _ Hd). apply alike_dht; intros.
      - unfold nxn_inplace. go_with ltac:(first [apply H; lt | tr]).
      - unfold nxn_oop. go_with ltac:(first [apply H; lt | tr]).
    Qed.
    Ltac nxn_tac := cbv zeta; rewrite (ak_len _ _ _ Hd); apply alike_nxn.
    Lemma alike_2xn : alike RD (mixed_radix_2xn d) (mixed_radix_2xn d').
    Proof. unfold mixed_radix_2xn. nxn_tac. apply resp2, L_map. intros. rct. Qed.
    Lemma alike_3xn : alike RD (mixed_radix_3xn d) (mixed_radix_3xn d').
    Proof. unfold mixed_radix_3xn. nxn_tac. apply resp3; [unfold bf3_new; rct|]. unfold radix3_twiddles. cbv zeta. apply L_map. intros. rct. Qed.
    Lemma alike_4xn : alike RD (mixed_radix_4xn d) (mixed_radix_4xn d').
    Proof. unfold mixed_radix_4xn. nxn_tac. apply resp4. unfold radix4xn_twiddles. cbv zeta. apply L_flat_map. intros. lt. Qed.
    Lemma alike_5xn : alike RD (mixed_radix_5xn d) (mixed_radix_5xn d').
    Proof. unfold mixed_radix_5xn. nxn_tac. apply resp5; [split; cbn [fst snd bf5_new]; rct|]. unfold radix5_twiddles. cbv zeta. apply L_flat_map. intros. lt. Qed.
    Lemma alike_6xn : alike RD (mixed_radix_6xn d) (mixed_radix_6xn d').
    Proof. unfold mixed_radix_6xn. nxn_tac. apply resp6; [unfold bf3_new; rct|]. unfold radix6_twiddles. cbv zeta. apply L_flat_map. intros. lt. Qed.
  End Nxn.

  (** ** MixedRadix *)
  Lemma rr_mixed_cell h r rv c t t' b b' : cr RC t t' -> L b b' -> rr L (mixed_cell h r rv c t b) (mixed_cell h r rv c t' b').
  Proof. intros. unfold mixed_cell. go_with tr. Qed.
  Lemma rr_mixed_mid h r c t t' b b' : cr RC t t' -> L b b' -> rr L (mixed_cell_mid h r c t b) (mixed_cell_mid h r c t' b').
  Proof. intros. unfold mixed_cell_mid. go_with tr. Qed.
  Ltac mt := idtac;
    lazymatch goal with
    | |- rr _ (mixed_cell _ _ _ _ _ _) _ => apply rr_mixed_cell; el
    | |- rr _ (mixed_cell_mid _ _ _ _ _) _ => apply rr_mixed_mid; el
    | _ => tr
    end.
  Lemma rr_mixed_apply w h t t' b b' : LC t t' -> L b b' -> rr L (mixed_apply_twiddles w h t b) (mixed_apply_twiddles w h t' b').
  Proof. intros. unfold mixed_apply_twiddles. go_with mt. Qed.
  Lemma rr_second_half b b' f f' n n' : L b b' -> f = f' -> n = n' -> rr L (reverse_second_half b f n) (reverse_second_half b' f' n').
  Proof. intros ? <- <-. unfold reverse_second_half. go_with tr. Qed.
  Lemma alike_mixed dw dw' dh dh' : alike RD dw dw' -> alike RD dh dh' -> alike RD (mixed_radix dw dh) (mixed_radix dw' dh').
  Proof.
    intros Hw Hh. unfold mixed_radix. cbv zeta.
    rewrite (ak_len _ _ _ Hw), (ak_ins _ _ _ Hw), (ak_oops _ _ _ Hw), (ak_len _ _ _ Hh), (ak_ins _ _ _ Hh).
    set (w := dht_len dw'). set (h := dht_len dh').
    assert (Ht : LC (mixed_twiddles w h) (mixed_twiddles w h)).
    { unfold mixed_twiddles. cbv zeta. apply L_flat_map. intros. apply L_map. intros. rct. }
    set (t := @mixed_twiddles A NA w h) in *. set (t' := @mixed_twiddles B NB w h) in *. clearbody t t' w h.
    apply alike_dht; intros.
    - unfold mixed_inplace. go_with ltac:(first [apply rr_mixed_apply; lt | apply rr_second_half; [lt|ln|ln] | tr]).
    - unfold mixed_oop. go_with ltac:(first [apply rr_mixed_apply; lt | apply rr_second_half; [lt|ln|ln] | tr]).
  Qed.

  (** ** SplitRadix *)
  Lemma rr_split_cell q t t' i s s' : LC t t' -> pr (pr (pr L L) L) L s s' -> rr (pr (pr (pr L L) L) L) (split_cell q t i s) (split_cell q t' i s').
  Proof. intros. open_rel. unfold split_cell. go_with tr. Qed.
  Lemma rr_split_apply n t t' b b' : LC t t' -> L b b' -> rr L (split_apply_twiddles n t b) (split_apply_twiddles n t' b').
  Proof. intros. unfold split_apply_twiddles. go_with ltac:(first [apply rr_split_cell; el | tr]). Qed.
  Lemma alike_split dq dq' dh dh' : alike RD dq dq' -> alike RD dh dh' -> rr (alike RD) (split_radix dq dh) (split_radix dq' dh').
  Proof.
    intros Hq Hh. unfold split_radix. cbv zeta. rewrite (ak_len _ _ _ Hq), (ak_len _ _ _ Hh).
    eapply rr_bind; [apply rr_eq|]. intros _ _ _. cbn [rr].
    set (n := dht_len dq' * 4).
    assert (Ht : LC (split_twiddles n) (split_twiddles n)) by (apply L_flat_map; intros; lt).
    set (t := @split_twiddles A NA n) in *. set (t' := @split_twiddles B NB n) in *. clearbody t t' n.
    apply alike_dht; intros.
    - unfold split_inplace. go_with ltac:(first [apply rr_split_apply; lt | tr]).
    - unfold split_oop. go_with ltac:(first [apply rr_split_apply; lt | tr]).
  Qed.

  (** ** Radix4 *)
  Lemma rr_base n : fst (@radix4_base A NA n) = fst (@radix4_base B NB n) /\ alike RD (snd (@radix4_base A NA n)) (snd (@radix4_base B NB n)).
  Proof.
    unfold radix4_base. destruct (trailing_zeros n) as [|[|[|k]]]; cbn [fst snd].
    - auto using alike_bf1.
    - auto using alike_bf2.
    - auto using alike_bf4.
    - destruct (_ =? 1); cbn [fst snd]; auto using alike_bf8, alike_bf16.
  Qed.
  Lemma rr_r4_twiddles f n s : rr LC (radix4_twiddles_go f n s) (radix4_twiddles_go f n s).
  Proof.
    revert s. induction f as [|f IH]; intros s; cbn [radix4_twiddles_go]; [exact I|]. cbv zeta.
    destruct (0 <? s); [|constructor]. eapply rr_bind; [apply IH|]. intros. apply L_app; auto.
    apply L_flat_map. intros. apply L_map. intros. rct.
  Qed.
  Lemma rr_on_tail o o' k f f' : L o o' -> (forall b b', L b b' -> rr L (f b) (f' b')) -> rr L (on_tail o k f) (on_tail o' k f').
  Proof. intros Ho Hf. unfold on_tail. go_with ltac:(first [apply Hf; lt | tr]). Qed.
  Lemma rr_prepare f rv n k i i' o o' st : L i i' -> L o o' -> rr L (prepare_radix4 f rv n k i o st) (prepare_radix4 f rv n k i' o' st).
  Proof.
    revert rv n i i' o o' st. induction f as [|f IH]; intros rv n i i' o o' st Hi Ho; cbn [prepare_radix4]; [exact I|].
    go_with ltac:(first [apply rr_on_tail; [lt|intros; apply IH; lt] | tr]).
  Qed.
  Lemma rr_cross f n c t t' o o' : LC t t' -> L o o' -> rr L (radix4_cross f n c t o) (radix4_cross f n c t' o').
  Proof.
    revert c t t' o o'. induction f as [|f IH]; intros c t t' o o' Ht Ho; cbn [radix4_cross]; [exact I|].
    go_with ltac:(first [apply rr_on_tail; [lt|intros; apply resp4; lt] | apply IH; lt | tr]).
  Qed.
  Lemma alike_radix4 n : rr (alike RD) (radix4 n) (radix4 n).
  Proof.
    unfold radix4. eapply rr_bind; [apply rr_eq|]. intros _ _ _. destruct (rr_base n) as [E Hb].
    destruct (@radix4_base A NA n) as [k d]. destruct (@radix4_base B NB n) as [k' d']. cbn [fst snd] in E, Hb. subst k'.
    eapply rr_bind; [apply rr_r4_twiddles|]. intros t t' Ht. cbn [rr].
    assert (O : forall i i' o o' s s', L i i' -> L o o' -> L s s' -> rr (pr (pr L L) L) (radix4_oop n k d t i o s) (radix4_oop n k d' t' i' o' s')).
    { intros. unfold radix4_oop. go_with ltac:(first [apply rr_prepare; lt | apply rr_cross; lt | tr]). }
    apply alike_dht; auto.
    intros. unfold radix4_inplace. go_with ltac:(first [apply O; lt | tr]).
  Qed.

  (** ** RadersAlgorithm *)
  Section Raders.
    Variables (d : Dht A) (d' : Dht B).
    Hypothesis Hd : alike RD d d'.
    Lemma rr_mul_mod m a a' b n : a = a' -> rr eq (mul_mod m a b n) (mul_mod m a' b n).
    Proof. intros <-. apply rr_eq. Qed.
    Ltac rt := idtac;
      lazymatch goal with
      | |- rr _ (mul_mod _ _ _ _) _ => apply rr_mul_mod; ln
      | _ => tr
      end.
    Lemma rr_raders_inplace m n r ri t t' b b' s s' : LC t t' -> L b b' -> L s s' ->
      rr (pr L L) (raders_inplace m d n r ri t b s) (raders_inplace m d' n r ri t' b' s').
    Proof.
      intros Ht Hb Hs. unfold raders_inplace. destruct Hb; [exact I|]. go_with rt.
    Qed.
    Lemma rr_raders_oop m n r ri t t' i i' o o' s s' : LC t t' -> L i i' -> L o o' -> L s s' ->
      rr (pr (pr L L) L) (raders_oop m d n r ri t i o s) (raders_oop m d' n r ri t' i' o' s').
    Proof.
      intros Ht Hi Ho Hs. unfold raders_oop. destruct Ho; [exact I|]. destruct Hi; [exact I|]. go_with rt.
    Qed.

    Notation K := (Forall2 RC).
    Hypothesis Hc : alike RC d d'.
    Lemma rr_raders_input m n ri : rr K (raders_dht_input m n ri) (raders_dht_input m n ri).
    Proof.
      unfold raders_dht_input. cbv zeta. apply (rr_bind (pr K eq)).
      - apply (rr_for_range (pr K eq)); auto; [split; cbn [fst snd]; auto; apply L_repeat; rct|].
        intros i [l j] [l' j'] [Hl Hj]. cbn [fst snd] in *. subst. go_with rt.
      - intros. open_rel. auto.
    Qed.
    Lemma rr_raders_twiddles l l' : K l l' -> rr LC (raders_twiddles l) (raders_twiddles l').
    Proof.
      intros Hl. unfold raders_twiddles. cbv zeta. rewrite (L_len Hl).
      assert (Z : LC (repeat (Cplx nzero nzero) (length l' / 2 + 1)) (repeat (Cplx nzero nzero) (length l' / 2 + 1))).
      { apply L_repeat. rct. }
      set (z := repeat _ _) in Z at 1. set (z' := repeat _ _) in Z. fold z z'. clearbody z z'.
      eapply rr_bind; [apply rr_idx; eauto|]. intros a0 a0' Ha. eapply rr_bind; [apply (rr_set (cr RC)); auto; rct|]. intros.
      apply (rr_bind LC); [apply (rr_for_range LC); auto; intros; go_with rt; apply (rr_set (cr RC)); auto; rct|].
      intros. eapply rr_bind; [apply rr_idx; eauto|]. intros. apply (rr_set (cr RC)); auto; rct.
    Qed.
    Lemma alike_raders m : rr (alike RD) (raders m d) (raders m d').
    Proof.
      unfold raders. cbv zeta. rewrite (ak_len _ _ _ Hd), (ak_ins _ _ _ Hd).
      eapply rr_bind; [apply rr_eq|]. intros _ _ _.
      eapply rr_bind; [apply rr_eq|]. intros [r ri] ? <-.
      eapply rr_bind; [apply rr_raders_input|]. intros a a' Ha.
      apply (rr_bind K).
      { unfold dht_process. rewrite (ak_ins _ _ _ Hd). eapply rr_bind; [apply (ak_inplace _ _ _ Hc); [exact Ha|]; apply L_repeat; rct|].
        intros. open_rel. auto. }
      intros b b' Hb. eapply rr_bind; [apply rr_raders_twiddles; eauto|]. intros t t' Ht. cbn [rr].
      apply alike_dht; intros; [now apply rr_raders_inplace|now apply rr_raders_oop].
    Qed.
  End Raders.
End Model.

