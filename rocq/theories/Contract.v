(** * The contract of a [Dht] instance, and how the boilerplate macros establish it *)
From Verif Require Export Lemmas Trait.

Section Contract.
  Context {T : Type} `{Num T}.

  (** [d] transforms every chunk [x] of [dht_len d] elements into [f x], through both methods, for every
      correctly sized argument, whatever scratch (and output) hold; the scratch beyond the required length
      is untouched. *)
  Record dht_ok (d : Dht T) (f : list T -> list T) : Prop := {
    ok_len : forall x, length x = dht_len d -> length (f x) = dht_len d;
    ok_inplace : 0 < dht_len d -> forall m buffer scratch,
      0 < m -> length buffer = m * dht_len d -> dht_inplace_scratch d <= length scratch ->
      exists scratch',
        dht_process_with_scratch d buffer scratch = Ok (map_chunks (dht_len d) f buffer, scratch') /\
        length scratch' = length scratch /\
        skipn (dht_inplace_scratch d) scratch' = skipn (dht_inplace_scratch d) scratch;
    ok_oop : 0 < dht_len d -> forall m input output scratch,
      0 < m -> length input = m * dht_len d -> length output = length input ->
      dht_oop_scratch d <= length scratch ->
      exists input' scratch',
        dht_process_oop d input output scratch = Ok (input', map_chunks (dht_len d) f input, scratch') /\
        length input' = length input /\
        length scratch' = length scratch /\
        skipn (dht_oop_scratch d) scratch' = skipn (dht_oop_scratch d) scratch;
    ok_zero : dht_len d = 0 ->
      (forall buffer scratch, dht_process_with_scratch d buffer scratch = Ok (buffer, scratch)) /\
      (forall input output scratch,
         dht_process_oop d input output scratch = Ok (input, output, scratch))
  }.

  (** arguments of the right sizes *)
  Definition valid_inplace (d : Dht T) (buffer scratch : list T) : Prop :=
    dht_len d <= length buffer /\ length buffer mod dht_len d = 0 /\
    dht_inplace_scratch d <= length scratch.
  Definition valid_oop (d : Dht T) (input output scratch : list T) : Prop :=
    length input = length output /\
    dht_len d <= length input /\ length input mod dht_len d = 0 /\
    dht_oop_scratch d <= length scratch.

  (** every wrongly sized call panics *)
  Definition dht_strict (d : Dht T) : Prop :=
    0 < dht_len d ->
    (forall buffer scratch, ~ valid_inplace d buffer scratch ->
       dht_process_with_scratch d buffer scratch = Panic) /\
    (forall input output scratch, ~ valid_oop d input output scratch ->
       dht_process_oop d input output scratch = Panic).

  Lemma valid_mult n l : 0 < n -> n <= l -> l mod n = 0 -> exists m, 0 < m /\ l = m * n.
  Proof.
    intros Hn Hl Hm. exists (l / n). apply Nat.div_exact in Hm; [|lia]. split; [|lia].
    apply Nat.div_str_pos. lia.
  Qed.

  Lemma dht_ok_ext d f g :
    dht_ok d f -> (forall x, length x = dht_len d -> f x = g x) -> dht_ok d g.
  Proof.
    intros [H1 H2 H3 H4] E. split; auto.
    - intros x Hx. rewrite <- E; auto.
    - intros Hn m b s Hm Hb Hs. destruct (H2 Hn m b s Hm Hb Hs) as (s' & E' & R).
      exists s'. split; auto. rewrite E'. now rewrite (map_chunks_ext _ m f g).
    - intros Hn m i o s Hm Hi Ho Hs. destruct (H3 Hn m i o s Hm Hi Ho Hs) as (i' & s' & E' & R).
      exists i', s'. split; auto. rewrite E'. now rewrite (map_chunks_ext _ m f g).
  Qed.

  (** ** chunk iteration *)
  Section Iter.
    Context {S : Type}.
    Variable n : nat.
    Variable f : list T -> list T.
    Variable I : S -> Prop.
    Hypothesis n_pos : 0 < n.

    Lemma iter_chunks_go_spec (fn : list T -> S -> res (list T * S)) :
      (forall c st, length c = n -> I st -> exists st', fn c st = Ok (f c, st') /\ I st') ->
      (forall c, length c = n -> length (f c) = n) ->
      forall fuel buf st, length buf < fuel -> I st ->
      exists st',
        iter_chunks_go fuel n fn buf st =
          Ok (map_chunks n f buf ++ skipn (length buf / n * n) buf, st', length buf mod n =? 0) /\ I st'.
    Proof.
      intros Hfn Hf. induction fuel as [|fuel IH]; intros buf st Hlt HI; [lia|].
      simpl. destruct (Nat.leb_spec n (length buf)) as [Hle|Hgt].
      - rewrite split_at_ok by auto. simpl.
        destruct (Hfn (firstn n buf) st) as (st1 & E1 & H1); auto.
        { rewrite firstn_length. lia. }
        rewrite E1. simpl.
        destruct (IH (skipn n buf) st1) as (st2 & E2 & H2); auto.
        { rewrite skipn_length. lia. }
        rewrite E2. simpl. exists st2. split; auto.
        rewrite skipn_length. rewrite app_assoc, <- map_chunks_cons; [|auto|rewrite firstn_length; lia].
        rewrite firstn_skipn.
        assert (D : (length buf - n) / n = length buf / n - 1).
        { replace (length buf) with ((length buf - n) + 1 * n) at 2 by lia.
          rewrite Nat.div_add by lia. lia. }
        assert (D1 : 0 < length buf / n) by (apply Nat.div_str_pos; lia).
        assert (M : (length buf - n) mod n = length buf mod n).
        { replace (length buf) with ((length buf - n) + 1 * n) at 2 by lia.
          now rewrite Nat.mod_add by lia. }
        rewrite skipn_add, D, M.
        now replace ((length buf / n - 1) * n + n) with (length buf / n * n) by nia.
      - exists st. split; auto. rewrite Nat.div_small, Nat.mod_small by auto. simpl.
        assert (map_chunks n f buf = []) as ->.
        { unfold map_chunks. now rewrite Nat.div_small. }
        reflexivity.
    Qed.

    Lemma iter_chunks_spec (fn : list T -> S -> res (list T * S)) buf st :
      (forall c st, length c = n -> I st -> exists st', fn c st = Ok (f c, st') /\ I st') ->
      (forall c, length c = n -> length (f c) = n) ->
      I st ->
      exists buf' st',
        iter_chunks buf n fn st = Ok (buf', st', length buf mod n =? 0) /\ I st' /\
        (length buf mod n = 0 -> buf' = map_chunks n f buf).
    Proof.
      intros Hfn Hf HI. unfold iter_chunks.
      destruct (iter_chunks_go_spec fn Hfn Hf (1 + length buf) buf st) as (st' & E & H'); auto.
      simpl plus in E.
      eexists _, st'. split; [exact E|]. split; auto. intros M.
      apply Nat.div_exact in M; [|lia]. rewrite Nat.mul_comm, <- M, skipn_all. now rewrite app_nil_r.
    Qed.

    Lemma iter_chunks_zipped_go_spec (fn : list T -> list T -> S -> res (list T * list T * S)) :
      (forall i o st, length i = n -> length o = n -> I st ->
         exists i' st', fn i o st = Ok (i', f i, st') /\ length i' = n /\ I st') ->
      (forall c, length c = n -> length (f c) = n) ->
      forall fuel b1 b2 st, length b1 < fuel -> length b2 = length b1 -> I st ->
      exists b1' b2' st',
        iter_chunks_zipped_go fuel n fn false b1 b2 st = Ok (b1', b2', st', length b1 mod n =? 0) /\
        length b1' = length b1 /\ I st' /\
        (length b1 mod n = 0 -> b2' = map_chunks n f b1).
    Proof.
      intros Hfn Hf. induction fuel as [|fuel IH]; intros b1 b2 st Hlt H2 HI; [lia|].
      simpl. rewrite H2. destruct (Nat.leb_spec n (length b1)) as [Hle|Hgt]; simpl.
      - rewrite (split_at_ok b1), (split_at_ok b2) by lia. simpl.
        destruct (Hfn (firstn n b1) (firstn n b2) st) as (i1 & st1 & E1 & L1 & I1);
          [rewrite firstn_length; lia|rewrite firstn_length; lia|auto|].
        rewrite E1. simpl.
        destruct (IH (skipn n b1) (skipn n b2) st1) as (i2 & o2 & st2 & E2 & L2 & I2 & R2);
          [rewrite skipn_length; lia|rewrite !skipn_length; lia|auto|].
        rewrite E2. simpl. rewrite skipn_length in *.
        assert (M : (length b1 - n) mod n = length b1 mod n).
        { replace (length b1) with ((length b1 - n) + 1 * n) at 2 by lia.
          now rewrite Nat.mod_add by lia. }
        rewrite M in *. eexists _, _, st2. split; [reflexivity|].
        split; [rewrite app_length, L2, L1; lia|]. split; auto.
        intros M0. rewrite R2 by auto. rewrite <- map_chunks_cons; [|auto|rewrite firstn_length; lia].
        now rewrite firstn_skipn.
      - eexists _, _, st. rewrite Nat.mod_small by auto. split; [reflexivity|].
        split; auto. split; auto. intros Z. destruct b1; [|simpl in Z; lia].
        destruct b2; [|simpl in H2; lia]. now rewrite map_chunks_nil.
    Qed.

    Lemma iter_chunks_zipped_spec (fn : list T -> list T -> S -> res (list T * list T * S)) b1 b2 st :
      (forall i o st, length i = n -> length o = n -> I st ->
         exists i' st', fn i o st = Ok (i', f i, st') /\ length i' = n /\ I st') ->
      (forall c, length c = n -> length (f c) = n) ->
      length b2 = length b1 -> I st ->
      exists b1' b2' st',
        iter_chunks_zipped b1 b2 n fn st = Ok (b1', b2', st', length b1 mod n =? 0) /\
        length b1' = length b1 /\ I st' /\
        (length b1 mod n = 0 -> b2' = map_chunks n f b1).
    Proof.
      intros Hfn Hf H2 HI. unfold iter_chunks_zipped.
      destruct (Nat.ltb_spec (length b2) (length b1)); [lia|].
      apply iter_chunks_zipped_go_spec; auto.
    Qed.
  End Iter.

  (** ** The error functions panic on every invalid argument *)
  Lemma dht_error_inplace_panic n l s s' :
    0 < n -> ~ (n <= l /\ l mod n = 0 /\ s <= s') -> dht_error_inplace n l s s' = Panic.
  Proof.
    intros Hn Hv. unfold dht_error_inplace, rassert.
    destruct (Nat.leb_spec n l); simpl; auto.
    destruct (Nat.eqb_spec n 0); simpl; auto.
    destruct (Nat.eqb_spec (l mod n) 0); simpl; auto.
    destruct (Nat.leb_spec s s'); simpl; auto. tauto.
  Qed.

  Lemma dht_error_outofplace_panic n l l' s s' :
    0 < n -> ~ (l = l' /\ n <= l /\ l mod n = 0 /\ s <= s') -> dht_error_outofplace n l l' s s' = Panic.
  Proof.
    intros Hn Hv. unfold dht_error_outofplace, rassert.
    destruct (Nat.eqb_spec l l'); simpl; auto.
    destruct (Nat.leb_spec n l); simpl; auto.
    destruct (Nat.eqb_spec n 0); simpl; auto.
    destruct (Nat.eqb_spec (l mod n) 0); simpl; auto.
    destruct (Nat.leb_spec s s'); simpl; auto. tauto.
  Qed.

  Lemma mult_mod m n : 0 < n -> (m * n) mod n = 0.
  Proof. intros. apply Nat.mod_mul. lia. Qed.

  (** ** boilerplate_dht! *)
  Lemma boilerplate_dht_ok n s o inplace oop f :
    (forall x, length x = n -> length (f x) = n) ->
    (0 < n -> forall c scr, length c = n -> length scr = s ->
       exists scr', inplace c scr = Ok (f c, scr') /\ length scr' = s) ->
    (0 < n -> forall i out scr, length i = n -> length out = n -> length scr = o ->
       exists i' scr', oop i out scr = Ok (i', f i, scr') /\ length i' = n /\ length scr' = o) ->
    dht_ok (boilerplate_dht n s o inplace oop) f /\ dht_strict (boilerplate_dht n s o inplace oop).
  Proof.
    intros Hf Hin Hoop. split.
    - split; simpl; auto.
      + intros Hn m b scr Hm Hb Hs.
        destruct (Nat.eqb_spec n 0); [lia|].
        destruct (Nat.ltb_spec (length scr) s); [lia|].
        destruct (Nat.ltb_spec (length b) n); [nia|]. simpl.
        rewrite split_at_ok by auto. simpl.
        destruct (iter_chunks_spec n f (fun scr => length scr = s) Hn inplace b (firstn s scr))
          as (b' & s' & E & I' & R); auto.
        { rewrite firstn_length. lia. }
        rewrite Hb, (mult_mod m n Hn) in E, R. rewrite E. simpl. rewrite R by auto.
        eexists. split; [reflexivity|]. rewrite app_length, skipn_length, I'.
        split; [lia|]. now apply skipn_app_exact.
      + intros Hn m i out scr Hm Hi Ho Hs.
        destruct (Nat.eqb_spec n 0); [lia|].
        destruct (Nat.ltb_spec (length scr) o); [lia|].
        destruct (Nat.ltb_spec (length i) n); [nia|].
        destruct (Nat.eqb_spec (length out) (length i)); [|lia]. simpl.
        rewrite split_at_ok by auto. simpl.
        destruct (iter_chunks_zipped_spec n f (fun scr => length scr = o) Hn oop i out (firstn o scr))
          as (i' & o' & s' & E & L' & I' & R); auto.
        { rewrite firstn_length. lia. }
        rewrite Hi, (mult_mod m n Hn) in E, R. rewrite E. simpl. rewrite R by auto.
        eexists _, _. split; [reflexivity|]. rewrite app_length, skipn_length, I'.
        split; [lia|]. split; [lia|]. now apply skipn_app_exact.
      + intros ->. simpl. auto.
    - intros Hn. unfold valid_inplace, valid_oop. simpl in *. split.
      + intros b scr Hv. destruct (Nat.eqb_spec n 0); [lia|].
        destruct (Nat.ltb_spec (length scr) s) as [?|Hs]; simpl.
        { now rewrite dht_error_inplace_panic. }
        destruct (Nat.ltb_spec (length b) n) as [?|Hb]; simpl.
        { now rewrite dht_error_inplace_panic. }
        rewrite split_at_ok by auto. simpl.
        destruct (iter_chunks_spec n f (fun scr => length scr = s) Hn inplace b (firstn s scr))
          as (b' & s' & E & I' & R); auto.
        { rewrite firstn_length. lia. }
        rewrite E. simpl. destruct (Nat.eqb_spec (length b mod n) 0); [tauto|].
        rewrite dht_error_inplace_panic by (auto; intuition lia). reflexivity.
      + intros i out scr Hv. destruct (Nat.eqb_spec n 0); [lia|].
        destruct (Nat.ltb_spec (length scr) o) as [?|Hs]; simpl.
        { now rewrite dht_error_outofplace_panic. }
        destruct (Nat.ltb_spec (length i) n) as [?|Hi]; simpl.
        { now rewrite dht_error_outofplace_panic. }
        destruct (Nat.eqb_spec (length out) (length i)) as [Ho|Ho]; simpl.
        2:{ rewrite dht_error_outofplace_panic by (auto; intuition lia). reflexivity. }
        rewrite split_at_ok by auto. simpl.
        destruct (iter_chunks_zipped_spec n f (fun scr => length scr = o) Hn oop i out (firstn o scr))
          as (i' & o' & s' & E & L' & I' & R); auto.
        { rewrite firstn_length. lia. }
        rewrite E. simpl. destruct (Nat.eqb_spec (length i mod n) 0); [exfalso; apply Hv; repeat split; auto; lia|].
        rewrite dht_error_outofplace_panic by (auto; intuition lia). reflexivity.
  Qed.

  (** ** boilerplate_dht_oop! *)
  Lemma boilerplate_dht_oop_ok n perform f :
    (forall x, length x = n -> length (f x) = n) ->
    (0 < n -> forall i out, length i = n -> length out = n -> perform i out = Ok (f i)) ->
    dht_ok (boilerplate_dht_oop n perform) f /\ dht_strict (boilerplate_dht_oop n perform).
  Proof.
    intros Hf Hp. 
    set (inplace := fun chunk scr : list T =>
               scr' <- perform chunk scr ;; chunk' <- copy_from_slice chunk scr' ;; Ok (chunk', scr')).
    assert (Hin : 0 < n -> forall c scr, length c = n -> length scr = n ->
       exists scr', inplace c scr = Ok (f c, scr') /\ length scr' = n).
    { intros Hn c scr Hc Hs. unfold inplace. rewrite Hp by auto. simpl.
      unfold copy_from_slice. rewrite Hf, Hc, Nat.eqb_refl by auto. simpl. eauto. }
    split.
    - split; simpl; auto.
      + intros Hn m b scr Hm Hb Hs.
        destruct (Nat.eqb_spec n 0); [lia|].
        destruct (Nat.ltb_spec (length scr) n); [lia|].
        destruct (Nat.ltb_spec (length b) n); [nia|]. simpl.
        rewrite split_at_ok by auto. simpl.
        destruct (iter_chunks_spec n f (fun scr => length scr = n) Hn inplace b (firstn n scr))
          as (b' & s' & E & I' & R); auto.
        { rewrite firstn_length. lia. }
        rewrite Hb, (mult_mod m n Hn) in E, R. fold inplace. rewrite E. simpl. rewrite R by auto.
        eexists. split; [reflexivity|]. rewrite app_length, skipn_length, I'.
        split; [lia|]. now apply skipn_app_exact.
      + intros Hn m i out scr Hm Hi Ho Hs.
        destruct (Nat.eqb_spec n 0); [lia|].
        destruct (Nat.ltb_spec (length i) n); [nia|].
        destruct (Nat.eqb_spec (length out) (length i)); [|lia]. simpl.
        destruct (iter_chunks_zipped_spec n f (fun _ => True) Hn
            (fun in_chunk out_chunk (u : unit) =>
                out' <- perform in_chunk out_chunk ;; Ok (in_chunk, out', u)) i out tt)
          as (i' & o' & s' & E & L' & I' & R); auto. try (intros; rewrite Hp by auto; simpl; now eauto).
        rewrite Hi, (mult_mod m n Hn) in E, R. rewrite E. simpl. rewrite R by auto.
        eexists _, _. split; [reflexivity|]. split; [lia|]. auto.
      + intros ->. simpl. auto.
    - intros Hn. unfold valid_inplace, valid_oop. simpl in *. split.
      + intros b scr Hv. destruct (Nat.eqb_spec n 0); [lia|].
        destruct (Nat.ltb_spec (length scr) n) as [?|Hs]; simpl.
        { now rewrite dht_error_inplace_panic. }
        destruct (Nat.ltb_spec (length b) n) as [?|Hb]; simpl.
        { now rewrite dht_error_inplace_panic. }
        rewrite split_at_ok by auto. simpl.
        destruct (iter_chunks_spec n f (fun scr => length scr = n) Hn inplace b (firstn n scr))
          as (b' & s' & E & I' & R); auto.
        { rewrite firstn_length. lia. }
        fold inplace. rewrite E. simpl. destruct (Nat.eqb_spec (length b mod n) 0); [tauto|].
        rewrite dht_error_inplace_panic by (auto; intuition lia). reflexivity.
      + intros i out scr Hv. destruct (Nat.eqb_spec n 0); [lia|].
        destruct (Nat.ltb_spec (length i) n) as [?|Hi]; simpl.
        { rewrite dht_error_outofplace_panic by (auto; intuition lia). reflexivity. }
        destruct (Nat.eqb_spec (length out) (length i)) as [Ho|Ho]; simpl.
        2:{ rewrite dht_error_outofplace_panic by (auto; intuition lia). reflexivity. }
        destruct (iter_chunks_zipped_spec n f (fun _ => True) Hn
            (fun in_chunk out_chunk (u : unit) =>
                out' <- perform in_chunk out_chunk ;; Ok (in_chunk, out', u)) i out tt)
          as (i' & o' & s' & E & L' & I' & R); auto. try (intros; rewrite Hp by auto; simpl; now eauto).
        rewrite E. simpl. destruct (Nat.eqb_spec (length i mod n) 0); [exfalso; apply Hv; repeat split; auto; lia|].
        rewrite dht_error_outofplace_panic by (auto; intuition lia). reflexivity.
  Qed.
End Contract.
