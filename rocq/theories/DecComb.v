(** * The combinators preserve the decoding contract. *)
From Verif Require Export DecPrim Comb Tuple Utf8.
Set Implicit Arguments.

(** [parses] is itself closed under the permitted calls. *)
Lemma parses_step_ok : forall S I (D : Decoder S I) m P, step_ok D m P (parses D m P).
Proof.
  intros S I D m P. constructor.
  - intros s w i (R & H & r). exact (so_len H r).
  - intros s w i (R & H & r). exact (so_idle H r).
  - intros s w i (R & H & r). exact (so_req H r).
  - intros s i fuel buf w' extra e (R & H & r) id NE EX T F.
    destruct (so_more H r id NE EX T F) as (s' & ? & ? & ?).
    exists s'; repeat split; auto. exists R; auto.
  - intros s i fuel w extra rest e (R & H & r) id EX T F.
    destruct (so_last H r id EX T F) as (s' & ? & ? & ?).
    exists s'; repeat split; auto. exists R; auto.
Qed.
Arguments parses_step_ok {S I} D m P.
Definition parses_len S I (D : Decoder S I) m P := @so_len _ _ _ _ _ _ (parses_step_ok D m P).
Definition parses_idle S I (D : Decoder S I) m P := @so_idle _ _ _ _ _ _ (parses_step_ok D m P).
Definition parses_req S I (D : Decoder S I) m P := @so_req _ _ _ _ _ _ (parses_step_ok D m P).
Definition parses_more S I (D : Decoder S I) m P := @so_more _ _ _ _ _ _ (parses_step_ok D m P).
Definition parses_last S I (D : Decoder S I) m P := @so_last _ _ _ _ _ _ (parses_step_ok D m P).

Arguments parses_len {S I D m P s w i} _.
Arguments parses_idle {S I D m P s w i} _ _.
Arguments parses_req {S I D m P s w i} _ _.
Arguments parses_more {S I D m P s i fuel buf w' extra e} _ _ _ _ _ _.
Arguments parses_last {S I D m P s i fuel w extra rest e} _ _ _ _ _.

(** ** Decoders that differ from the inner one only in [finish_decoding] *)
Lemma finish_map_parses : forall S I T (D : Decoder S I) (D' : Decoder S T) m P (F : I -> T -> Prop),
  (forall fuel s buf e, dec_decode D' fuel s buf e = dec_decode D fuel s buf e) ->
  (forall s, dec_req D' s = dec_req D s) ->
  (forall s, dec_idle D' s = dec_idle D s) ->
  (forall s s' i t, F i t -> dec_finish D s = (s', Ok i) -> dec_finish D' s = (s', Ok t)) ->
  forall s w i t, F i t -> parses D m P s w i -> parses D' m P s w t.
Proof.
  intros S I T D D' m P F E1 E2 E3 E4 s w i t Ft H.
  exists (fun s w t => exists i, parses D m P s w i /\ F i t). split; [|eauto].
  constructor.
  - intros s0 w0 t0 (i0 & H0 & _). exact (parses_len H0).
  - intros s0 w0 t0 (i0 & H0 & F0) id. rewrite E3 in id. rewrite E2.
    destruct (parses_idle H0 id) as (? & ? & s' & Fi & ?). repeat split; auto.
    exists s'; split; auto. eauto.
  - intros s0 w0 t0 (i0 & H0 & F0) id. rewrite E3 in id. rewrite E2. exact (parses_req H0 id).
  - intros s0 t0 fuel buf w' extra e (i0 & H0 & F0) id NE EX Tr Fu. rewrite E3 in id.
    destruct (parses_more H0 id NE EX Tr Fu) as (s' & ? & ? & ?).
    exists s'. rewrite E1, E3. eauto.
  - intros s0 t0 fuel w0 extra rest e (i0 & H0 & F0) id EX Tr Fu. rewrite E3 in id.
    destruct (parses_last H0 id EX Tr Fu) as (s' & ? & ? & ?).
    exists s'. rewrite E1, E3. eauto.
Qed.

Lemma map_parses : forall S I T (D : Decoder S I) (f : I -> T) m P s w i,
  parses D m P s w i -> parses (map_decoder D f) m P s w (f i).
Proof.
  intros. apply finish_map_parses with (D := D) (F := fun i t => t = f i) (i := i); auto.
  intros s0 s' i0 t -> E. cbn. now rewrite E.
Qed.

Lemma try_map_parses : forall S I T (D : Decoder S I) (f : I -> T + ErrorKind) m P s w i t,
  parses D m P s w i -> f i = inl t -> parses (try_map_decoder D f) m P s w t.
Proof.
  intros. apply finish_map_parses with (D := D) (F := fun i t => f i = inl t) (i := i); auto.
  intros s0 s' i0 t0 Ft E. cbn. rewrite E. cbn. now rewrite Ft.
Qed.

Lemma utf8_parses : forall S (D : Decoder S (list byte)) m P s w b str,
  parses D m P s w b -> str_from_utf8 b = Some str -> parses (utf8_decoder D) m P s w str.
Proof.
  intros. apply finish_map_parses with (D := D) (F := fun b t => str_from_utf8 b = Some t) (i := b);
    auto.
  intros s0 s' i0 t0 Ft E. cbn. rewrite E. cbn. now rewrite Ft.
Qed.

Lemma num_parses : forall T (dec : list byte -> T) m P s w b,
  parses (copy_decoder vec_box) m P s w b -> parses (num_decoder dec) m P s w (dec b).
Proof. intros. exact (map_parses dec H). Qed.

Lemma map_err_parses : forall S I (D : Decoder S I) f m P s w i,
  parses D m P s w i -> parses (map_err_decoder D f) m P s w i.
Proof.
  intros S I D f m P s w i H. exists (parses D m P); split; auto. constructor.
  - intros ? ? ? H0; exact (parses_len H0).
  - intros s0 w0 i0 H0 id. cbn in *. destruct (parses_idle H0 id) as (? & ? & s' & E & ?).
    rewrite E. eauto 6.
  - intros s0 w0 i0 H0 id. exact (parses_req H0 id).
  - intros s0 i0 fuel buf w' extra e H0 id NE EX Tr Fu. cbn in *.
    destruct (parses_more H0 id NE EX Tr Fu) as (s' & E & ? & ?).
    rewrite E. eauto.
  - intros s0 i0 fuel w0 extra rest e H0 id EX Tr Fu. cbn in *.
    destruct (parses_last H0 id EX Tr Fu) as (s' & E & ? & ?).
    rewrite E. eauto.
Qed.

(** ** omit *)
Definition omit_R S I (D : Decoder S I) m P (st : Omittable S) (w : list byte) (o : option I) : Prop :=
  om_omit st = false /\ exists i, o = Some i /\ parses D m P (om_inner st) w i.
Lemma omit_step : forall S I (D : Decoder S I) m P,
  step_ok (omit_decoder D) m (fun st => om_omit st = false /\ P (om_inner st)) (omit_R D m P).
Proof.
  intros S I D m P. unfold omit_R.
  constructor.
  - intros s0 w0 o (_ & i0 & _ & H0). exact (parses_len H0).
  - intros [s0 om] w0 o (Eo & i0 & -> & H0) id. cbn in *. subst om. cbn in *.
    destruct (parses_idle H0 id) as (? & ? & s' & E & ?). rewrite E. cbn. eauto 8.
  - intros [s0 om] w0 o (Eo & i0 & -> & H0) id. cbn in *. subst om. exact (parses_req H0 id).
  - intros [s0 om] o fuel buf w' extra e (Eo & i0 & -> & H0) id NE EX Tr Fu. cbn in *. subst om.
    cbn in *. destruct (parses_more H0 id NE EX Tr Fu) as (s' & E & ? & ?).
    rewrite E. cbn. eexists; repeat split; cbn; eauto.
  - intros [s0 om] o fuel w0 extra rest e (Eo & i0 & -> & H0) id EX Tr Fu. cbn in *. subst om.
    cbn in *. destruct (parses_last H0 id EX Tr Fu) as (s' & E & ? & ?).
    rewrite E. cbn. eexists; repeat split; cbn; eauto.
Qed.

Lemma omit_false_parses : forall S I (D : Decoder S I) m P s w i,
  parses D m P s w i ->
  parses (omit_decoder D) m (fun st => om_omit st = false /\ P (om_inner st))
         (mkOmit s false) w (Some i).
Proof.
  intros S I D m P s w i H. exists (omit_R D m P). split; [apply omit_step|].
  unfold omit_R; cbn; eauto.
Qed.

Lemma omit_true_parses : forall S I (D : Decoder S I) m s,
  parses (omit_decoder D) m (fun st => st = mkOmit s true) (mkOmit s true) [] None.
Proof.
  intros S I D m s. exists (fun st w o => st = mkOmit s true /\ w = [] /\ o = None).
  split; [|auto]. constructor.
  - intros ? ? ? (_ & -> & _). cbn; lia.
  - intros ? ? ? (-> & -> & ->) _. cbn. eauto 6.
  - intros ? ? ? (-> & -> & ->) id. discriminate.
  - intros ? ? ? ? ? ? ? (-> & _) id. discriminate.
  - intros ? ? ? ? ? ? ? (-> & _) id. discriminate.
Qed.

(** ** Tuples *)

(** Facts about the expansion of the tuple macros. *)
Record parts_ok {S I} (P : DecParts S I) : Prop := {
  po_idle : forall fuel s off buf e, dp_idle P s = true -> dp_decode P fuel s off buf e = TGo s off;
  po_go : forall fuel s off buf e s' off',
    dp_decode P fuel s off buf e = TGo s' off' -> dp_idle P s' = true;
  po_ret : forall fuel s off buf e s' n,
    dp_decode P fuel s off buf e = TRet s' (Ok n) -> dp_idle P s' = false
}.

Lemma try_decode_idle : forall S I (D : Decoder S I) fuel s off buf e,
  dec_idle D s = true -> try_decode D fuel s off buf e = TGo s off.
Proof. intros; unfold try_decode; now rewrite H. Qed.
Lemma try_decode_go : forall S I (D : Decoder S I) fuel s off buf e s' off',
  try_decode D fuel s off buf e = TGo s' off' -> dec_idle D s' = true.
Proof.
  intros S I D fuel s off buf e s' off'. unfold try_decode.
  destruct (dec_idle D s) eqn:id; [congruence|].
  destruct (slice_from off buf); [|discriminate].
  destruct (dec_decode D fuel s l e) as [s1 [n| | |]]; try discriminate.
  destruct (dec_idle D s1) eqn:id1; congruence.
Qed.
Lemma try_decode_ret : forall S I (D : Decoder S I) fuel s off buf e s' n,
  try_decode D fuel s off buf e = TRet s' (Ok n) -> dec_idle D s' = false.
Proof.
  intros S I D fuel s off buf e s' off'. unfold try_decode.
  destruct (dec_idle D s) eqn:id; [congruence|].
  destruct (slice_from off buf); [|discriminate].
  destruct (dec_decode D fuel s l e) as [s1 [n| | |]]; try discriminate.
  destruct (dec_idle D s1) eqn:id1; congruence.
Qed.

Lemma dp_one_ok : forall S I (D : Decoder S I), parts_ok (dp_one D).
Proof.
  intros. constructor; cbn.
  - intros. now apply try_decode_idle.
  - intros. eapply try_decode_go; eauto.
  - intros. eapply try_decode_ret; eauto.
Qed.

Lemma dp_snoc_ok : forall S I S' I' (P : DecParts S I) (D : Decoder S' I'),
  parts_ok P -> parts_ok (dp_snoc P D).
Proof.
  intros S I S' I' P D [H1 H2 H3]. constructor; cbn.
  - intros fuel [s0 s1] off buf e id. cbn in *. apply andb_prop in id. destruct id as [i0 i1].
    rewrite H1 by auto. rewrite try_decode_idle by auto. reflexivity.
  - intros fuel [s0 s1] off buf e s' off'. cbn.
    destruct (dp_decode P fuel s0 off buf e) as [a oa|a r] eqn:E0; [|discriminate].
    destruct (try_decode D fuel s1 oa buf e) as [b ob|b r] eqn:E1; [|discriminate].
    intros [= <- <-]. cbn. rewrite (H2 _ _ _ _ _ _ _ E0), (try_decode_go _ _ _ _ _ _ E1). auto.
  - intros fuel [s0 s1] off buf e s' n. cbn.
    destruct (dp_decode P fuel s0 off buf e) as [a oa|a r] eqn:E0.
    + destruct (try_decode D fuel s1 oa buf e) as [b ob|b r] eqn:E1; [discriminate|].
      intros [= <- ->]. cbn. rewrite (try_decode_ret _ _ _ _ _ _ E1). apply andb_false_r.
    + intros [= <- ->]. cbn. rewrite (H3 _ _ _ _ _ _ _ E0). reflexivity.
Qed.

(** A tuple with one more component is a pair of the tuple and the component. *)
Lemma tuple_snoc_eq : forall S I S' I' (P : DecParts S I) (D : Decoder S' I'),
  parts_ok P ->
  dec_sim (tuple2_decoder (tuple_of_dec_parts P) D) (tuple_of_dec_parts (dp_snoc P D)).
Proof.
  intros S I S' I' P D [H1 H2 H3]. repeat split.
  - intros fuel [s0 s1] buf e. cbn. unfold try_decode at 1. cbn.
    destruct (dp_idle P s0) eqn:id.
    + rewrite H1 by auto. destruct (try_decode D fuel s1 0 buf e); reflexivity.
    + destruct (dp_decode P fuel s0 0 buf e) as [a oa|a [n| | |]] eqn:E; auto.
      * rewrite (H2 _ _ _ _ _ _ _ E).
        destruct (try_decode D fuel s1 oa buf e); reflexivity.
      * rewrite (H3 _ _ _ _ _ _ _ E). reflexivity.
  - intros [s0 s1] q. cbn. destruct (dp_req P (Finite 0) s0) as [q0| | |] eqn:E; cbn; auto.
    assert (A : add_for_decoding (Finite 0) q0 = Ok q0 \/ add_for_decoding (Finite 0) q0 = Panic).
    { destruct q0; cbn; auto. unfold opt_finite, u64_add.
      destruct (0 + n <=? u64_max)%N; auto. }
    destruct A as [A|A]; cbn in A; rewrite A; [auto|discriminate].
Qed.

(** The pair. *)
Section Pair.
  Context {S0 S1 I0 I1 : Type} (D0 : Decoder S0 I0) (D1 : Decoder S1 I1) (m : mode)
          (P0 : S0 -> Prop) (P1 : S1 -> Prop).

  Definition pair_R (s : S0 * S1) (w : list byte) (i : I0 * I1) : Prop :=
    (len w <= isize_max)%N /\
    (m = ToEos -> dec_idle D0 (fst s) = false -> dec_idle D1 (snd s) = false) /\
    exists w0 w1, w = w0 ++ w1 /\
      parses D0 SD P0 (fst s) w0 (fst i) /\ parses D1 m P1 (snd s) w1 (snd i).

  Lemma truthful_shrink : forall m buf0 buf1 rest e,
    truthful m (buf0 ++ buf1) rest e -> truthful m buf1 rest e.
  Proof.
    unfold truthful; intros m' b0 b1 rest e [H|[[H1 H2]|H]]; auto.
    rewrite len_app in H2. right; left; split; auto; lia.
  Qed.

  Lemma pair_req : forall s0 s1 w0 w1 i0 i1,
    (len (w0 ++ w1) <= isize_max)%N ->
    (m = ToEos -> dec_idle D0 s0 = false -> dec_idle D1 s1 = false) ->
    parses D0 SD P0 s0 w0 i0 -> parses D1 m P1 s1 w1 i1 ->
    dec_idle D0 s0 && dec_idle D1 s1 = false ->
    req_ok m (dec_req (tuple2_decoder D0 D1) (s0, s1)) (w0 ++ w1).
  Proof.
    intros s0 s1 w0 w1 i0 i1 L X H0 H1 id. cbn.
    rewrite len_app in L. pose proof isize_u64.
    assert (Q0 : (dec_idle D0 s0 = true /\ w0 = [] /\ dec_req D0 s0 = Ok (Finite 0)) \/
                 (dec_idle D0 s0 = false /\ req_ok SD (dec_req D0 s0) w0)).
    { destruct (dec_idle D0 s0) eqn:i0d; [left|right]; split; auto.
      - destruct (parses_idle H0 i0d) as (? & ? & _); auto.
      - exact (parses_req H0 i0d). }
    assert (Q1 : (dec_idle D1 s1 = true /\ w1 = [] /\ dec_req D1 s1 = Ok (Finite 0)) \/
                 (dec_idle D1 s1 = false /\ req_ok m (dec_req D1 s1) w1)).
    { destruct (dec_idle D1 s1) eqn:i1d; [left|right]; split; auto.
      - destruct (parses_idle H1 i1d) as (? & ? & _); auto.
      - exact (parses_req H1 i1d). }
    assert (N0 : w0 ++ w1 = [] -> w0 = [] /\ w1 = []) by apply app_eq_nil.
    destruct Q0 as [(a0 & -> & ->)|(a0 & q0)], Q1 as [(a1 & -> & ->)|(a1 & q1)];
      rewrite ?a0, ?a1 in *; try discriminate; cbn [app].
    - cbn [rbind add_for_decoding opt_finite u64_add N.add N.leb].
      change (0 + 0 <=? u64_max)%N with true. cbn.
      destruct m; cbn in *; destruct (dec_req D1 s1) as [[n| |]| | |]; cbn in *; auto; try tauto.
      all: rewrite u64_add_ok by (unfold isize_max, u64_max in *; lia); cbn; auto.
    - destruct (dec_req D0 s0) as [[n| |]| | |]; cbn in q0; try tauto.
      + cbn. rewrite len_nil in *. rewrite u64_add_ok by lia. cbn. rewrite u64_add_ok by lia. cbn.
        replace (n + 0)%N with n by lia. rewrite app_nil_r.
        destruct m; try (split; [lia|tauto]). specialize (X eq_refl eq_refl). discriminate.
      + cbn. rewrite app_nil_r.
        destruct m; cbn; auto.
    - destruct m; cbn in q1; destruct (dec_req D0 s0) as [[n0| |]| | |]; cbn in q0; try tauto;
        destruct (dec_req D1 s1) as [[n1| |]| | |]; cbn in q1; try tauto;
        cbn [rbind add_for_decoding opt_finite]; rewrite ?u64_add_ok by lia; cbn;
        rewrite ?u64_add_ok by lia; cbn;
        repeat match goal with |- context [(?a =? ?b)%N] => destruct (N.eqb_spec a b) end; cbn;
        rewrite ?len_app; try split; try lia; intuition (subst; try lia; auto).
      all: rewrite H4, H6 by lia; reflexivity.
  Qed.

  Lemma pair_parses : forall s0 s1 w0 w1 i0 i1,
    (len (w0 ++ w1) <= isize_max)%N ->
    (m = ToEos -> dec_idle D1 s1 = false) ->
    parses D0 SD P0 s0 w0 i0 -> parses D1 m P1 s1 w1 i1 ->
    parses (tuple2_decoder D0 D1) m (fun s => P0 (fst s) /\ P1 (snd s)) (s0, s1) (w0 ++ w1) (i0, i1).
  Proof.
    intros s0 s1 w0 w1 i0 i1 L X H0 H1. exists pair_R; split.
    2:{ split; [auto|]. split; [cbn; auto|]. exists w0, w1; auto. }
    clear. constructor.
    - intros s w i (L & _); exact L.
    - intros [s0 s1] w [i0 i1] (L & X & w0 & w1 & -> & H0 & H1) id. cbn in *.
      apply andb_prop in id. destruct id as [id0 id1].
      destruct (parses_idle H0 id0) as (-> & Q0 & s0' & F0 & PP0).
      destruct (parses_idle H1 id1) as (-> & Q1 & s1' & F1 & PP1).
      rewrite Q0, Q1, F0, F1. cbn. repeat split; auto. exists (s0', s1'); cbn; auto.
    - intros [s0 s1] w [i0 i1] (L & X & w0 & w1 & -> & H0 & H1) id.
      eapply pair_req; eauto.
    - intros [s0 s1] [i0 i1] fuel buf w' extra e (L & X & w0 & w1 & E & H0 & H1) id NE EX T F.
      cbn in id, X, H0, H1. rewrite E in L.
      cbn. unfold try_decode at 1. cbn [slice_from].
      assert (G : forall s0' b0 b1, buf = b0 ++ b1 -> w1 = b1 ++ w' -> dec_idle D0 s0' = true ->
        parses D0 SD P0 s0' [] i0 ->
        exists s' : S0 * S1,
          (let '(s'0, r) := match (match try_decode D1 fuel s1 (length b0) buf e with
                | TGo b ob => TGo (s0', b) ob
                | TRet b r => TRet (s0', b) r end) with
                | TGo s' off => (s', Ok off) | TRet s' r => (s', r) end in (s'0, r))
          = (s', Ok (length buf)) /\
          dec_idle D0 (fst s') && dec_idle D1 (snd s') = false /\ pair_R s' w' (i0, i1)).
      { intros s0' b0 b1 -> -> id0 H0'.
        destruct (dec_idle D1 s1) eqn:id1.
        { destruct (parses_idle H1 id1) as (N & _). destruct b1, w'; try discriminate; congruence. }
        assert (T1 : truthful m b1 (w' ++ extra) e) by (eapply truthful_shrink; eauto).
        assert (F1 : length b1 < fuel) by (rewrite app_length in F; lia).
        destruct (parses_more H1 id1 NE EX T1 F1) as (s1' & E1 & id1' & H1').
        unfold try_decode. rewrite id1, slice_from_app, E1, id1'.
        exists (s0', s1'). cbn. rewrite app_length, id1', andb_false_r.
        repeat split; auto. { cbn. rewrite !len_app in L. lia. }
        cbn. exists [], w'; auto. }
      destruct (dec_idle D0 s0) eqn:id0.
      + destruct (parses_idle H0 id0) as (-> & _). cbn in E.
        destruct (G s0 [] buf eq_refl (eq_sym E) id0 H0) as (s' & E' & ? & ?).
        exists s'; split; auto. cbn [length] in E'.
        destruct (try_decode D1 fuel s1 0 buf e); exact E'.
      + cbn. destruct (app_cases _ _ _ _ (eq_sym E)) as [(w0' & -> & -> & NE0)|(b1 & -> & ->)].
        * assert (T0 : truthful SD buf (w0' ++ w1 ++ extra) e)
            by (rewrite app_assoc; now apply truthful_weaken with m).
          destruct (parses_more H0 id0 NE0 ltac:(congruence) T0 F) as (s0' & E0 & id0' & H0').
          rewrite E0, id0'. exists (s0', s1). cbn. rewrite id0'. repeat split; auto.
          { rewrite !len_app in *. lia. }
          exists w0', w1; auto.
        * assert (T0 : truthful SD (w0 ++ b1) (w' ++ extra) e) by (now apply truthful_weaken with m).
          destruct (parses_last H0 id0 ltac:(congruence) T0 F) as (s0' & E0 & id0' & H0').
          cbn in id0'. rewrite E0, id0'. cbn [Nat.add].
          destruct (G s0' w0 b1 eq_refl eq_refl id0' H0') as (s' & E' & ? & ?).
          exists s'; split; auto.
          destruct (try_decode D1 fuel s1 (length w0) (w0 ++ b1) e); exact E'.
    - intros [s0 s1] [i0 i1] fuel w extra rest e (L & X & w0 & w1 & E & H0 & H1) id EX T F. subst w.
      cbn in id, X, H0, H1.
      cbn. unfold try_decode at 1. cbn [slice_from].
      assert (G : forall s0', dec_idle D0 s0' = true ->
        parses D0 SD P0 s0' [] i0 ->
        exists s' : S0 * S1,
          match (match try_decode D1 fuel s1 (length w0) (w0 ++ w1 ++ extra) e with
                | TGo b ob => TGo (s0', b) ob
                | TRet b r => TRet (s0', b) r end) with
                | TGo s' off => (s', Ok off) | TRet s' r => (s', r) end
          = (s', Ok (length (w0 ++ w1))) /\
          dec_idle D0 (fst s') && dec_idle D1 (snd s') = done_idle m e /\ pair_R s' [] (i0, i1)).
      { intros s0' id0 H0'. unfold try_decode. destruct (dec_idle D1 s1) eqn:id1.
        { destruct (parses_idle H1 id1) as (-> & _).
          exists (s0', s1). cbn. rewrite app_nil_r, id0, id1. split; [auto|]. split.
          - destruct (dec_idle D0 s0); [discriminate|].
            destruct m; auto. discriminate (X eq_refl eq_refl).
          - split; [cbn; lia|]. split; [cbn; congruence|]. exists [], []; auto. }
        rewrite <- app_assoc in T.
        assert (T1 : truthful m (w1 ++ extra) rest e) by (eapply truthful_shrink; eauto).
        assert (F1 : length (w1 ++ extra) < fuel) by (rewrite !app_length in *; lia).
        destruct (parses_last H1 id1 EX T1 F1) as (s1' & E1 & id1' & H1').
        rewrite slice_from_app, E1, id1'.
        exists (s0', s1'). cbn. rewrite app_length, id0, id1'.
        split; [destruct (done_idle m e); reflexivity|]. split; auto.
        split; [cbn; lia|]. split; [cbn; congruence|]. exists [], []; auto. }
      rewrite <- app_assoc in *.
      destruct (dec_idle D0 s0) eqn:id0.
      + destruct (parses_idle H0 id0) as (-> & _).
        destruct (G s0 id0 H0) as (s' & E' & ? & ?).
        exists s'; split; auto.
      + cbn. 
        assert (T0 : truthful SD (w0 ++ w1 ++ extra) rest e) by (now apply truthful_weaken with m).
        destruct (parses_last H0 id0 ltac:(congruence) T0 F) as (s0' & E0 & id0' & H0').
        cbn in id0'. rewrite E0, id0'. cbn [Nat.add].
        destruct (G s0' id0' H0') as (s' & E' & ? & ?). exists s'; auto.
  Qed.
End Pair.
