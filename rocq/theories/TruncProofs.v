(** * Every reporting term notices a stream that ends inside an item. *)
From Verif Require Export Trunc UniverseProofs.
Set Implicit Arguments.

(** [w'] is missing after the buffer; the hint says that [r] more bytes follow. *)
Definition hinted (m : mode) (buf w' : list byte) (e : Eos) : Prop :=
  match e with
  | Unknown => True
  | Finite r => (len buf + r <= u64_max)%N /\ (m <> SD -> (r < len w')%N)
  | Infinite => m = SD
  end.

Record cut_step {S I} (D : Decoder S I) (m : mode) (g : bool) (Post : S -> Prop)
    (T : S -> list byte -> I -> Prop) : Prop := {
  cs_parses : forall s w i, T s w i -> parses D m Post s w i;
  cs_cut : forall s i fuel buf w' e,
    T s (buf ++ w') i -> dec_idle D s = false -> w' <> [] -> hinted m buf w' e ->
    length buf < fuel -> exists s',
      (dec_decode D fuel s buf e = (s', Ok (length buf)) /\ dec_idle D s' = false /\ T s' w' i /\
       (e = Finite 0 -> g = false /\ buf <> [])) \/
      (dec_decode D fuel s buf e = (s', Err UnexpectedEos) /\ exists r, e = Finite r /\ (r < len w')%N)
}.
Arguments cs_parses {S I D m g Post T} _ {s w i} _.
Arguments cs_cut {S I D m g Post T} _ {s i fuel buf w' e} _ _ _ _ _.
Definition cuts {S I} (D : Decoder S I) (m : mode) (g : bool) (Post : S -> Prop)
    (s : S) (w : list byte) (i : I) : Prop := exists T, cut_step D m g Post T /\ T s w i.

Lemma cuts_step : forall S I (D : Decoder S I) m g P, cut_step D m g P (cuts D m g P).
Proof.
  intros S I D m g P. constructor.
  - intros s w i (T & H & t). exact (cs_parses H t).
  - intros s i fuel buf w' e (T & H & t) id NE HI F.
    destruct (cs_cut H t id NE HI F) as (s' & [(? & ? & ? & ?)|?]); exists s'; auto.
    left; repeat split; auto; try apply H3; auto. exists T; auto.
Qed.
Lemma cuts_parses : forall S I (D : Decoder S I) m g P s w i,
  cuts D m g P s w i -> parses D m P s w i.
Proof. intros S I D m g P s w i (T & H & t). exact (cs_parses H t). Qed.
Lemma cuts_cut : forall S I (D : Decoder S I) m g P s i fuel buf w' e,
  cuts D m g P s (buf ++ w') i -> dec_idle D s = false -> w' <> [] -> hinted m buf w' e ->
  length buf < fuel -> exists s',
    (dec_decode D fuel s buf e = (s', Ok (length buf)) /\ dec_idle D s' = false /\
     cuts D m g P s' w' i /\ (e = Finite 0 -> g = false /\ buf <> [])) \/
    (dec_decode D fuel s buf e = (s', Err UnexpectedEos) /\ exists r, e = Finite r /\ (r < len w')%N).
Proof. intros S I D m g P. intros *; exact (cs_cut (cuts_step D m g P)). Qed.
Arguments cuts_parses {S I D m g P s w i} _.
Arguments cuts_cut {S I D m g P s i fuel buf w' e} _ _ _ _ _.

(** The continuation after a complete call, for any hint: the missing stream is filled with zeros. *)
Lemma hinted_truthful : forall m buf w' e, hinted m buf w' e -> exists rest, truthful SD buf rest e.
Proof.
  unfold hinted, truthful. intros m buf w' [r| |] H.
  - exists (repeat x00 (N.to_nat r)). right; left. rewrite len_repeat, N2Nat.id. tauto.
  - exists []; auto.
  - exists []; auto.
Qed.
Lemma hinted_shrink : forall m b0 b1 w' e, hinted m (b0 ++ b1) w' e -> hinted m b1 w' e.
Proof.
  unfold hinted. intros m b0 b1 w' [r| |]; auto. rewrite len_app. intros [? ?]; split; auto; lia.
Qed.
Lemma hinted_sd : forall m b w w' e, hinted m b w e -> hinted SD b w' e.
Proof. unfold hinted. intros m b w w' [r| |]; auto. intros [? ?]; split; auto; congruence. Qed.
Arguments hinted_truthful {m buf w' e} _.
Arguments hinted_shrink {m} b0 {b1 w' e} _.
Arguments hinted_sd {m b w} {w'} {e} _.
Lemma reached_finite : forall e, is_reached e = true -> e = Finite 0.
Proof.
  intros [n| |]; cbn; try discriminate. destruct n; cbn; auto; discriminate.
Qed.

Lemma cuts_post : forall S I (D : Decoder S I) m g (P Q : S -> Prop) s w i,
  (forall s, P s -> Q s) -> cuts D m g P s w i -> cuts D m g Q s w i.
Proof.
  intros S I D m g P Q s w i H (T & [A B] & t). exists T; split; auto. constructor; auto.
  intros. eapply parses_post; eauto.
Qed.
Lemma cuts_late : forall S I (D : Decoder S I) m g (P : S -> Prop) s w i,
  cuts D m true P s w i -> cuts D m g P s w i.
Proof.
  intros S I D m g P s w i (T & [A B] & t). exists T; split; auto. constructor; auto.
  intros s0 i0 fuel buf w' e t0 id NE HI F.
  destruct (B s0 i0 fuel buf w' e t0 id NE HI F) as (s' & [(? & ? & ? & X)|?]); exists s'; auto.
  left; repeat split; auto. all: destruct (X ltac:(assumption)); congruence.
Qed.
Lemma cuts_sd_exact : forall S I (D : Decoder S I) g P s w i,
  cuts D SD g P s w i -> cuts D Exact g P s w i.
Proof.
  intros S I D g P s w i (T & [A B] & t). exists T; split; auto. constructor.
  - intros; apply parses_sd_exact; auto.
  - intros. eapply B; eauto. eapply hinted_sd; eauto.
Qed.
Lemma cuts_ext : forall S I (D D' : Decoder S I) m g P s w i,
  dec_sim D D' -> (forall s, dec_idle D' s = dec_idle D s) ->
  cuts D m g P s w i -> cuts D' m g P s w i.
Proof.
  intros S I D D' m g P s w i Sm Id (T & [A B] & t). exists T; split; auto. constructor.
  - intros. eapply parses_ext; eauto.
  - intros s0 i0 fuel buf w' e t0 id NE HI F. rewrite Id in id.
    destruct Sm as (E & _). 
    destruct (B s0 i0 fuel buf w' e t0 id NE HI F) as (s' & X). exists s'.
    rewrite <- E, Id. exact X.
Qed.

(** ** Primitives *)

(** A decoder that looks only at whether the end has been reached, and then fails. *)
Lemma prompt_cuts : forall S I (D : Decoder S I) g P (J : S -> list byte -> Prop),
  (forall s fuel buf e, is_reached e = false ->
     dec_decode D fuel s buf e = dec_decode D fuel s buf Unknown) ->
  (forall s fuel buf w' s', J s (buf ++ w') -> dec_decode D fuel s buf Unknown = (s', Ok (length buf)) ->
     J s' w') ->
  (forall s fuel buf w', J s (buf ++ w') -> w' <> [] -> dec_idle D s = false ->
     exists s', dec_decode D fuel s buf (Finite 0) = (s', Err UnexpectedEos)) ->
  forall s w i, parses D SD P s w i -> J s w -> cuts D SD g P s w i.
Proof.
  intros S I D g P J E1 E2 E3 s w i H j.
  exists (fun s w i => parses D SD P s w i /\ J s w); split; auto. clear H j. constructor.
  - intros ? ? ? [H _]; exact H.
  - intros s0 i0 fuel buf w' e [H j] id NE HI F.
    destruct (is_reached e) eqn:R.
    + apply reached_finite in R. subst e. destruct (E3 s0 fuel buf w' j NE id) as (s' & X).
      exists s'. right; split; auto. exists 0%N; split; auto.
      pose proof (length_nonnil NE). unfold len; lia.
    + destruct (parses_more (extra := []) (e := Unknown) H id NE ltac:(congruence) ltac:(left; reflexivity) F)
        as (s' & X1 & X2 & X3).
      exists s'. left. rewrite E1 by auto. repeat split; auto.
      * eapply E2; eauto.
      * subst; discriminate.
      * subst; discriminate.
Qed.

Section CopyCut.
  Context {B : Type} (BX : ByteBox B) (OK : box_ok BX).
  Definition copy_left (st : CopyDec B) (w : list byte) : Prop :=
    cd_off st + length w = length (bx_ref BX (cd_bytes st)).
  Lemma copy_cuts : forall g P s w i,
    parses (copy_decoder BX) SD P s w i -> copy_left s w -> cuts (copy_decoder BX) SD g P s w i.
  Proof.
    intros g P. destruct OK as [GP PG PP]. apply prompt_cuts.
    - intros [b off] fuel buf e R. cbn. unfold copy_decode. rewrite R. reflexivity.
    - intros [b off] fuel buf w' s' J. unfold copy_left in *. cbn in *. unfold copy_decode. cbn.
      rewrite app_length in J.
      rewrite usize_sub_ok by lia. replace (Nat.min _ _) with (length buf) by lia.
      rewrite andb_false_r. intros [= <-]. cbn.
      rewrite GP; rewrite ?app_length, ?firstn_length, ?skipn_length, ?firstn_length; lia.
    - intros [b off] fuel buf w' J NE id. unfold copy_left in *. cbn in *. unfold copy_decode. cbn.
      rewrite app_length in J. pose proof (length_nonnil NE).
      rewrite usize_sub_ok by lia. replace (Nat.min _ _) with (length buf) by lia.
      rewrite GP by (unfold overwrite; rewrite ?app_length, ?firstn_length, ?skipn_length, ?firstn_length; lia).
      unfold overwrite. rewrite ?app_length, ?firstn_length, ?skipn_length, ?firstn_length.
      replace (_ =? _) with false by lia. cbn. eauto.
  Qed.

  Definition bytes_left (st : BytesDec B) (w : list byte) : Prop :=
    exists b, bd_bytes st = Some b /\ bd_off st + length w = length (bx_ref BX b).
  Lemma bytes_cuts : forall g P s w i,
    parses (bytes_decoder BX) SD P s w i -> bytes_left s w -> cuts (bytes_decoder BX) SD g P s w i.
  Proof.
    intros g P. destruct OK as [GP PG PP]. apply prompt_cuts.
    - intros [b off] fuel buf e R. cbn. unfold bytes_decode. rewrite R. reflexivity.
    - intros [b off] fuel buf w' s' (b0 & E & J). cbn in *. subst b. unfold bytes_decode. cbn.
      rewrite app_length in J.
      rewrite usize_sub_ok by lia. replace (Nat.min _ _) with (length buf) by lia.
      rewrite andb_false_r. intros [= <-]. eexists; split; [reflexivity|]. cbn.
      rewrite GP; rewrite ?app_length, ?firstn_length, ?skipn_length, ?firstn_length; lia.
    - intros [b off] fuel buf w' (b0 & E & J) NE id. cbn in *. subst b. unfold bytes_decode. cbn.
      rewrite app_length in J. pose proof (length_nonnil NE).
      rewrite usize_sub_ok by lia. replace (Nat.min _ _) with (length buf) by lia.
      unfold bytes_dec_exact; cbn.
      rewrite GP by (unfold overwrite; rewrite ?app_length, ?firstn_length, ?skipn_length, ?firstn_length; lia).
      unfold overwrite. rewrite ?app_length, ?firstn_length, ?skipn_length, ?firstn_length.
      replace (_ - _ =? 0) with false by lia. cbn. eauto.
  Qed.
End CopyCut.

(** ** Combinators *)
Lemma finish_map_cuts : forall S I T (D : Decoder S I) (D' : Decoder S T) m g P (F : I -> T -> Prop),
  (forall fuel s buf e, dec_decode D' fuel s buf e = dec_decode D fuel s buf e) ->
  (forall s, dec_req D' s = dec_req D s) ->
  (forall s, dec_idle D' s = dec_idle D s) ->
  (forall s s' i t, F i t -> dec_finish D s = (s', Ok i) -> dec_finish D' s = (s', Ok t)) ->
  forall s w i t, F i t -> cuts D m g P s w i -> cuts D' m g P s w t.
Proof.
  intros S I T D D' m g P F E1 E2 E3 E4 s w i t Ft H.
  exists (fun s w t => exists i, cuts D m g P s w i /\ F i t). split; [|eauto].
  clear s w i t Ft H. constructor.
  - intros s w t (i & H & Ft). eapply finish_map_parses; eauto using cuts_parses.
  - intros s t fuel buf w' e (i & H & Ft) id NE HI Fu. rewrite E3 in id. rewrite E1.
    destruct (cuts_cut H id NE HI Fu) as (s' & [(X1 & X2 & X3 & X4)|X]); exists s'; auto.
    left. rewrite E3. repeat split; eauto; apply X4; auto.
Qed.
Lemma map_cuts : forall S I T (D : Decoder S I) (f : I -> T) m g P s w i,
  cuts D m g P s w i -> cuts (map_decoder D f) m g P s w (f i).
Proof.
  intros. apply finish_map_cuts with (D := D) (F := fun i t => t = f i) (i := i); auto.
  intros s0 s' i0 t -> E. cbn. now rewrite E.
Qed.
Lemma try_map_cuts : forall S I T (D : Decoder S I) (f : I -> T + ErrorKind) m g P s w i t,
  cuts D m g P s w i -> f i = inl t -> cuts (try_map_decoder D f) m g P s w t.
Proof.
  intros. apply finish_map_cuts with (D := D) (F := fun i t => f i = inl t) (i := i); auto.
  intros s0 s' i0 t0 Ft E. cbn. rewrite E. cbn. now rewrite Ft.
Qed.
Lemma utf8_cuts : forall S (D : Decoder S (list byte)) m g P s w b str,
  cuts D m g P s w b -> str_from_utf8 b = Some str -> cuts (utf8_decoder D) m g P s w str.
Proof.
  intros. apply finish_map_cuts with (D := D) (F := fun b t => str_from_utf8 b = Some t) (i := b);
    auto.
  intros s0 s' i0 t0 Ft E. cbn. rewrite E. cbn. now rewrite Ft.
Qed.
Lemma num_cuts : forall T (dec : list byte -> T) m g P s w b,
  cuts (copy_decoder vec_box) m g P s w b -> cuts (num_decoder dec) m g P s w (dec b).
Proof. intros. exact (map_cuts dec H). Qed.

Lemma map_err_cuts : forall S I (D : Decoder S I) f m g P s w i,
  f UnexpectedEos = UnexpectedEos ->
  cuts D m g P s w i -> cuts (map_err_decoder D f) m g P s w i.
Proof.
  intros S I D f m g P s w i FU H. exists (cuts D m g P). split; auto. clear s w i H. constructor.
  - intros. apply map_err_parses. eapply cuts_parses; eauto.
  - intros s i fuel buf w' e H id NE HI Fu. cbn in id |- *.
    destruct (cuts_cut H id NE HI Fu) as (s' & [(X1 & X2 & X3 & X4)|(X1 & X2)]); exists s';
      rewrite X1; auto.
    right. cbn. now rewrite FU.
Qed.

Lemma omit_false_cuts : forall S I (D : Decoder S I) m g P s w i,
  cuts D m g P s w i ->
  cuts (omit_decoder D) m g (fun st => om_omit st = false /\ P (om_inner st))
       (mkOmit s false) w (Some i).
Proof.
  intros S I D m g P s w i H.
  exists (fun st w o => om_omit st = false /\ exists i, o = Some i /\ cuts D m g P (om_inner st) w i).
  split; [|eauto]. clear s w i H. constructor.
  - intros [s om] w o (Eo & i & -> & H). cbn in *. subst om. apply omit_false_parses.
    eapply cuts_parses; eauto.
  - intros [s om] o fuel buf w' e (Eo & i & -> & H) id NE HI Fu. cbn in *. subst om. cbn in *.
    destruct (cuts_cut H id NE HI Fu) as (s' & [(X1 & X2 & X3 & X4)|(X1 & X2)]); rewrite X1;
      eexists; [left|right]; (split; [reflexivity|]); auto.
    cbn. repeat split; eauto; apply X4; auto.
Qed.
Lemma omit_true_cuts : forall S I (D : Decoder S I) m g s,
  cuts (omit_decoder D) m g (fun st => st = mkOmit s true) (mkOmit s true) [] None.
Proof.
  intros S I D m g s. exists (fun st w o => st = mkOmit s true /\ w = [] /\ o = None).
  split; [|auto]. constructor.
  - intros ? ? ? (-> & -> & ->). apply omit_true_parses.
  - intros ? ? ? ? ? ? (-> & _) id. discriminate.
Qed.

(** *** Tuples *)
Lemma pair_cuts : forall S0 S1 I0 I1 (D0 : Decoder S0 I0) (D1 : Decoder S1 I1) m g
    (P0 : S0 -> Prop) (P1 : S1 -> Prop) s0 s1 w0 w1 i0 i1,
  (len (w0 ++ w1) <= isize_max)%N -> m <> ToEos ->
  cuts D0 SD g P0 s0 w0 i0 -> cuts D1 m g P1 s1 w1 i1 ->
  cuts (tuple2_decoder D0 D1) m g (fun s => P0 (fst s) /\ P1 (snd s)) (s0, s1) (w0 ++ w1) (i0, i1).
Proof.
  intros S0 S1 I0 I1 D0 D1 m g P0 P1 s0 s1 w0 w1 i0 i1 L NT H0 H1.
  exists (fun s w i => (len w <= isize_max)%N /\ exists w0 w1, w = w0 ++ w1 /\
    cuts D0 SD g P0 (fst s) w0 (fst i) /\ cuts D1 m g P1 (snd s) w1 (snd i)).
  split; [|split; auto; exists w0, w1; auto].
  clear s0 s1 w0 w1 i0 i1 L H0 H1. constructor.
  - intros [s0 s1] w [i0 i1] (L & w0 & w1 & -> & H0 & H1). cbn in *.
    apply pair_parses; auto; try congruence; eapply cuts_parses; eauto.
  - intros [s0 s1] [i0 i1] fuel buf w' e (L & w0 & w1 & E & H0 & H1) id NE HI F.
    cbn in id, H0, H1. rewrite E in L. cbn. unfold try_decode at 1 3. cbn [slice_from].
    assert (G : forall s0' b0 b1, buf = b0 ++ b1 -> w1 = b1 ++ w' -> dec_idle D0 s0' = true ->
      cuts D0 SD g P0 s0' [] i0 ->
      exists s' : S0 * S1,
        let r := match (match try_decode D1 fuel s1 (length b0) buf e with
                | TGo b ob => TGo (s0', b) ob
                | TRet b r => TRet (s0', b) r end) with
                | TGo s' off => (s', Ok off) | TRet s' r => (s', r) end in
        (r = (s', Ok (length buf)) /\
         dec_idle D0 (fst s') && dec_idle D1 (snd s') = false /\
         ((len w' <= isize_max)%N /\ exists w0 w1, w' = w0 ++ w1 /\
           cuts D0 SD g P0 (fst s') w0 i0 /\ cuts D1 m g P1 (snd s') w1 i1) /\
         (e = Finite 0 -> g = false /\ buf <> [])) \/
        (r = (s', Err UnexpectedEos) /\ exists r, e = Finite r /\ (r < len w')%N)).
    { intros s0' b0 b1 -> -> id0 H0'.
      destruct (dec_idle D1 s1) eqn:id1.
      { destruct (parses_idle (cuts_parses H1) id1) as (N & _). destruct b1, w'; try discriminate; congruence. }
      apply hinted_shrink in HI.
      assert (F1 : length b1 < fuel) by (rewrite app_length in F; lia).
      destruct (cuts_cut H1 id1 NE HI F1) as (s1' & [(E1 & id1' & H1' & X)|(E1 & X)]);
        unfold try_decode; rewrite id1, slice_from_app, E1; exists (s0', s1'); cbn; [left|right].
      - rewrite id1'. cbn. rewrite app_length, andb_false_r. repeat split; auto.
        + rewrite !len_app in L. lia.
        + exists [], w'; auto.
        + apply X; auto.
        + destruct (X ltac:(assumption)) as [_ ?]. destruct b0; cbn; congruence.
      - split; auto. }
    destruct (dec_idle D0 s0) eqn:id0.
    + destruct (parses_idle (cuts_parses H0) id0) as (-> & _). cbn in E.
      destruct (G s0 [] buf eq_refl (eq_sym E) id0 H0) as (s' & X). exists s'. cbn [length] in X. cbn in X |- *.
      destruct (try_decode D1 fuel s1 0 buf e); exact X.
    + cbn. destruct (app_cases _ _ _ _ (eq_sym E)) as [(w0' & -> & -> & NE0)|(b1 & -> & ->)].
      * destruct (cuts_cut H0 id0 NE0 (hinted_sd HI) F) as (s0' & [(E0 & id0' & H0' & X)|(E0 & X)]);
          rewrite E0; exists (s0', s1); cbn; [left|right].
        -- rewrite id0'. cbn. repeat split; auto.
           { rewrite !len_app in *. lia. }
           { exists w0', w1; auto. }
           all: apply X; auto.
        -- split; auto. destruct X as (r & -> & X). exists r; split; auto. rewrite len_app. lia.
      * destruct (hinted_truthful HI) as (rest & T0).
        destruct (parses_last (cuts_parses H0) id0 ltac:(congruence) T0 F) as (s0' & E0 & id0' & H0').
        cbn in id0'.
        assert (H0c : cuts D0 SD g P0 s0' [] i0).
        { exists (fun s w i => parses D0 SD P0 s w i /\ w = []); split; auto. constructor; [tauto|].
          intros s2 i2 fuel2 buf2 w2 e2 [_ Ew] _ NE2. destruct buf2, w2; try discriminate; congruence. }
        destruct (G s0' w0 b1 eq_refl eq_refl id0' H0c) as (s' & X). exists s'.
        rewrite E0, id0'. cbn [Nat.add].
        destruct (try_decode D1 fuel s1 (length w0) (w0 ++ b1) e); exact X.
Qed.
Lemma tuple_snoc_cuts : forall S I S' I' (P : DecParts S I) (D : Decoder S' I') m g
    (Q : S -> Prop) (Q' : S' -> Prop) s s' w w' i i',
  parts_ok P -> (len (w ++ w') <= isize_max)%N -> m <> ToEos ->
  cuts (tuple_of_dec_parts P) SD g Q s w i -> cuts D m g Q' s' w' i' ->
  cuts (tuple_of_dec_parts (dp_snoc P D)) m g (fun s => Q (fst s) /\ Q' (snd s))
         (s, s') (w ++ w') (i, i').
Proof.
  intros. eapply cuts_ext; [apply tuple_snoc_eq; auto|reflexivity|]. apply pair_cuts; auto.
Qed.

(** *** and_then *)
Lemma and_then_cuts : forall S0 S1 I0 I1 (D0 : Decoder S0 I0) (D1 : Decoder S1 I1) f m g
    (P0 : S0 -> Prop) (P1 : S1 -> Prop) s0 w0 w1 i0 i1,
  w0 <> [] -> (len (w0 ++ w1) <= isize_max)%N -> m <> ToEos ->
  cuts D0 SD g P0 s0 w0 i0 -> cuts D1 m g P1 (f i0) w1 i1 ->
  cuts (and_then_decoder D0 D1 f) m g (fun st => P0 (at_inner0 st) /\ at_inner1 st = None)
       (and_then_new s0) (w0 ++ w1) i1.
Proof.
  intros S0 S1 I0 I1 D0 D1 f m g P0 P1 s0 w0 w1 i0 i1 NE0 L NT H0 H1.
  set (T := fun (st : AndThen S0 S1) (w : list byte) (i : I1) =>
    (len w <= isize_max)%N /\
    match at_inner1 st with
    | None => exists w0 w1 i0, w = w0 ++ w1 /\ w0 <> [] /\
        cuts D0 SD g P0 (at_inner0 st) w0 i0 /\ cuts D1 m g P1 (f i0) w1 i
    | Some s1 => P0 (at_inner0 st) /\ cuts D1 m g P1 s1 w i
    end).
  exists T. split; [|split; auto; cbn; exists w0, w1, i0; auto].
  clear s0 w0 w1 i0 i1 NE0 L H0 H1. constructor.
  - intros [s0 [s1|]] w i (L & X); cbn in X.
    + destruct X as [p X]. apply cuts_parses in X.
      eexists; split; [apply and_then_step with (P0 := P0) (P1 := P1)|]. split; auto. cbn; auto.
    + destruct X as (w0 & w1 & i0 & -> & NE & X0 & X1).
      eapply and_then_parses; eauto; try congruence; eapply cuts_parses; eauto.
  - assert (G : forall fuel s0 s1 pre b w' e i,
      P0 s0 -> cuts D1 m g P1 s1 (b ++ w') i -> w' <> [] ->
      hinted m (pre ++ b) w' e -> length (pre ++ b) < fuel ->
      exists st', (and_then_body D1 fuel s0 s1 (length pre) (pre ++ b) e
                = (st', Ok (length (pre ++ b))) /\
         dec_idle (and_then_decoder D0 D1 f) st' = false /\ T st' w' i /\
         (e = Finite 0 -> g = false /\ pre ++ b <> [])) \/
        (and_then_body D1 fuel s0 s1 (length pre) (pre ++ b) e = (st', Err UnexpectedEos) /\
         exists r, e = Finite r /\ (r < len w')%N)).
    { intros fuel s0 s1 pre b w' e i H0 H1 NE HI F.
      pose proof (parses_len (cuts_parses H1)) as L. rewrite len_app in L.
      destruct (dec_idle D1 s1) eqn:id1.
      { destruct (parses_idle (cuts_parses H1) id1) as (N & _). destruct b, w'; try discriminate; congruence. }
      assert (F1 : length b < fuel) by (rewrite app_length in F; lia).
      destruct (cuts_cut H1 id1 NE (hinted_shrink _ HI) F1) as (s1' & [(E1 & id1' & H1' & X)|(E1 & X)]);
        unfold and_then_body, try_decode; rewrite id1, slice_from_app, E1; eexists; [left|right];
        rewrite ?id1'; (split; [rewrite ?app_length; reflexivity|]); auto.
      cbn. split; auto. split; [split; [lia|cbn; auto]|].
      intros E. destruct (X E); split; auto. destruct pre; cbn; congruence. }
    intros [s0 [s1|]] i fuel buf w' e (L & X) id NE HI F; cbn in X; cbn in id |- *;
      unfold and_then_decode; cbn.
    + destruct X as [p X]. exact (G fuel s0 s1 [] buf w' e i p X NE HI F).
    + destruct X as (w0 & w1 & i0 & E & NE0 & H0 & H1).
      destruct (dec_idle D0 s0) eqn:id0.
      { destruct (parses_idle (cuts_parses H0) id0) as (-> & _). congruence. }
      unfold try_decode. rewrite id0, slice_from_0.
      destruct (app_cases _ _ _ _ (eq_sym E)) as [(w0' & -> & -> & NE')|(b1 & -> & ->)].
      * destruct (cuts_cut H0 id0 NE' (hinted_sd HI) F) as (s0' & [(E0 & id0' & H0' & X)|(E0 & X)]);
          rewrite E0; rewrite ?id0'; eexists; [left|right]; (split; [reflexivity|]).
        -- cbn. split; auto. split; auto. split.
           { rewrite !len_app in *. lia. }
           cbn. exists w0', w1, i0; auto 6.
        -- destruct X as (r & -> & X). exists r; split; auto. rewrite len_app. lia.
      * destruct (hinted_truthful HI) as (rest & T0).
        destruct (parses_last (cuts_parses H0) id0 ltac:(congruence) T0 F) as (s0' & E0 & id0' & H0').
        cbn in id0'. rewrite E0, id0'. cbn [Nat.add].
        destruct (parses_idle H0' id0') as (_ & _ & s0'' & -> & PP).
        exact (G fuel s0'' (f i0) w0 b1 w' e i PP H1 NE HI F).
Qed.

(** *** length: the inner decoder need not report anything *)
Lemma length_cuts : forall S I (D : Decoder S I) m P s w i,
  parses D m P s w i ->
  cuts (length_decoder D) SD false
       (fun st => P (ln_inner st) /\ ln_expected st = len w /\ ln_remaining st = len w)
       (length_new s (len w)) w i.
Proof.
  intros S I D m P s w0 i0 H.
  exists (length_R D m P w0). split; [|repeat split; auto].
  clear s i0 H. constructor.
  - intros s w i H. exists (length_R D m P w0). split; auto. apply length_step.
  - intros st i fuel buf w' e H id NE HI F.
    destruct (so_more (length_step D m P w0) (extra := []) (e := Unknown) H id NE ltac:(congruence)
      ltac:(left; reflexivity) F) as (s' & X1 & X2 & X3).
    destruct H as (H & E & E').
    pose proof (parses_len H) as L. rewrite len_app in L, E. pose proof isize_u64.
    pose proof (length_nonnil NE) as NE'.
    cbn in X1 |- *. unfold length_decode in *. rewrite E in *.
    replace (N.min (len buf) (len buf + len w')) with (len buf) in * by lia.
    replace (len buf + len w' - len buf)%N with (len w') in * by lia.
    cbn [remaining_bytes bc_to_u64] in X1.
    destruct e as [r| |]; cbn [remaining_bytes bc_to_u64].
    + destruct HI as [HI _]. rewrite u64_add_ok by lia.
      destruct (N.leb_spec (len w') (r + len buf)).
      * exists s'. left. split; auto. split; auto. split; auto. intros [= ->]. split; auto.
        intros ->. unfold len in *; cbn in *; lia.
      * exists st. right. split; auto. exists r; split; auto. lia.
    + exists s'. left. split; auto. split; auto. split; auto. discriminate.
    + exists s'. left. split; auto. split; auto. split; auto. discriminate.
Qed.

(** *** max_bytes *)
Lemma max_cuts : forall S I (D : Decoder S I) m g P s w i mx,
  m <> SD -> (len w <= mx <= u64_max)%N ->
  cuts D m g P s w i ->
  cuts (max_decoder D) m g
       (fun st => P (mx_inner st) /\ mx_consumed st = 0%N /\ mx_max st = mx)
       (max_new s mx) w i.
Proof.
  intros S I D m g P s w0 i0 mx NSD BND H.
  exists (fun st w i => cuts D m g P (mx_inner st) w i /\
                        (mx_consumed st + len w <= mx)%N /\ mx_max st = mx); split.
  2:{ repeat split; cbn; auto; lia. }
  assert (MX : (mx <= u64_max)%N) by lia.
  clear - NSD MX. constructor.
  - intros st w i (H & L & E). exists (max_R D m P mx (mx_consumed st + len w)). split; [apply max_step; auto; lia|].
    split; auto. eapply cuts_parses; eauto.
  - intros [s c x] i fuel buf w' e (H & E & E') id NE HI F. cbn in *. subst x.
    unfold max_decode; cbn. rewrite len_app in E.
    assert (G : max_check (mkMax s c mx) buf e = Ok tt).
    { unfold max_check; cbn. rewrite u64_sub_ok by lia.
      destruct e as [r| |]; cbn in HI |- *; try congruence.
      - destruct HI as [HI1 HI2]. specialize (HI2 NSD). rewrite u64_add_ok by lia.
        replace (_ <=? _)%N with true by lia; auto.
      - replace (_ <=? _)%N with true by lia; auto. }
    rewrite G.
    destruct (cuts_cut H id NE HI F) as (s' & [(X1 & X2 & X3 & X4)|(X1 & X2)]); rewrite X1.
    + rewrite u64_add_ok by (unfold len in *; lia).
      eexists; left; split; [reflexivity|]. cbn. repeat split; auto; try (apply X4; auto).
      unfold len in *; lia.
    + eexists; right; split; [reflexivity|]. auto.
Qed.

(** *** peekable *)
Lemma peek_cuts : forall S I (D : Decoder S I) m g P s w i,
  dec_idle D s = false -> cuts D m g P s w i ->
  cuts (peek_decoder D) m g (fun st => P (pk_inner st) /\ pk_item st = None) (peek_new s) w i.
Proof.
  intros S I D m g P s w0 i0 ID H.
  exists (fun st w i => match pk_item st with
                        | Some j => w = [] /\ j = i /\ P (pk_inner st)
                        | None => dec_idle D (pk_inner st) = false /\ cuts D m g P (pk_inner st) w i
                        end); split; [|cbn; auto].
  clear. constructor.
  - intros st w i H. exists (peek_R D m P). split; [apply peek_step|]. unfold peek_R.
    destruct (pk_item st); auto. destruct H; split; auto. eapply cuts_parses; eauto.
  - intros [s [j|]] i fuel buf w' e; cbn; [discriminate|].
    intros (id & H) _ NE HI F. unfold peek_decode; cbn.
    destruct (cuts_cut H id NE HI F) as (s' & [(X1 & X2 & X3 & X4)|(X1 & X2)]); rewrite X1.
    + rewrite X2. eexists; left; split; [reflexivity|]. cbn. repeat split; auto; apply X4; auto.
    + eexists; right; split; [reflexivity|]. auto.
Qed.

(** *** collectn *)
Section CollCut.
  Context {S I : Type} (D : Decoder S I) (fmt : format I) (P : S -> Prop) (g : bool)
          (CUT : forall s w i, P s -> fmt w i -> cuts D SD g P s w i)
          (NEF : forall w i, fmt w i -> w <> []).

  Definition cut_at (s : S) (w : list byte) (is : list I) : Prop :=
    (P s /\ seq_fmt fmt w is) \/
    (exists w1 w2 i1 is2, w = w1 ++ w2 /\ is = i1 :: is2 /\ w1 <> [] /\
       cuts D SD g P s w1 i1 /\ seq_fmt fmt w2 is2).
  Lemma cut_at_coll : forall s w is, cut_at s w is -> coll_at D fmt P s w is.
  Proof.
    intros s w is [H|(w1 & w2 & i1 & is2 & A & B & C & H & E)]; [left; auto|right].
    exists w1, w2, i1, is2. repeat split; auto. eapply cuts_parses; eauto.
  Qed.
  Lemma cut_mid : forall s w is, cut_at s w is -> is <> [] ->
    exists w1 w2 i1 is2, w = w1 ++ w2 /\ is = i1 :: is2 /\ w1 <> [] /\
       cuts D SD g P s w1 i1 /\ seq_fmt fmt w2 is2.
  Proof.
    intros s w is [(Ps & ws & -> & F)|H]; auto. intros NE.
    destruct F as [|w1 i1 ws is F1 F]; [congruence|].
    exists w1, (concat ws), i1, is. repeat split; auto.
    - eapply NEF; eauto.
    - exists ws; auto.
  Qed.

  Lemma collectn_loop_cut : forall is fuel s acc pre b w' e,
    cut_at s (b ++ w') is -> w' <> [] -> hinted SD b w' e -> length b < fuel ->
    exists s' acc' is',
      (collectn_loop D fuel (length is) s acc (length pre) (pre ++ b) e
        = (mkCollectN s' (length is') acc', Ok (length (pre ++ b))) /\
       acc' ++ is' = acc ++ is /\ cut_at s' w' is' /\
       (e = Finite 0 -> g = false /\ b <> [])) \/
      (collectn_loop D fuel (length is) s acc (length pre) (pre ++ b) e
        = (mkCollectN s' (length is') acc', Err UnexpectedEos) /\
       exists r, e = Finite r /\ (r < len w')%N).
  Proof.
    assert (DEC : decodes D SD fmt P P).
    { intros s w i p F. eapply cuts_parses. apply CUT; eauto. }
    induction is as [|i0 is IH]; intros fuel s acc pre b w' e C NE HI F.
    { exfalso. apply (coll_nonnil (cut_at_coll C)); auto. destruct b, w'; cbn; congruence. }
    destruct (cut_mid C ltac:(discriminate)) as (w1 & w2 & i1 & is2 & E & [= <- <-] & NE1 & H & SQ).
    pose proof (mid_not_idle NE1 (cuts_parses H)) as id.
    pose proof (length_nonnil NE) as NE'.
    cbn [collectn_loop length].
    destruct b as [|x b0].
    { rewrite app_nil_r, Nat.ltb_irrefl. cbn [negb andb Nat.eqb].
      exists s, acc, (i0 :: is). destruct (is_reached e) eqn:R.
      - right. split; auto. exists 0%N; split; [now apply reached_finite|]. unfold len; lia.
      - left. repeat split; auto; subst; discriminate. }
    set (b := x :: b0) in *.
    replace (length pre <? length (pre ++ b)) with true
      by (rewrite app_length; unfold b; cbn [length]; lia).
    unfold try_decode. rewrite id, slice_from_app.
    destruct (app_cases _ _ _ _ (eq_sym E)) as [(w1' & -> & -> & NE'')|(b1 & Eb & ->)].
    - destruct (cuts_cut H id NE'' (hinted_sd HI) F) as (s' & [(X1 & X2 & X3 & X4)|(X1 & X2)]);
        rewrite X1; exists s', acc, (i0 :: is).
      + left. rewrite X2, app_length. repeat split; auto; try (apply X4; auto).
        right. exists w1', w2, i0, is. auto 6.
      + right. split; auto. destruct X2 as (r & -> & X2). exists r; split; auto.
        rewrite len_app. lia.
    - rewrite Eb in *. destruct (hinted_truthful HI) as (rest & T).
      destruct (parses_last (cuts_parses H) id ltac:(congruence) T F) as (s' & -> & id' & H').
      cbn in id'. rewrite id'. destruct (parses_idle H' id') as (_ & _ & s'' & -> & PP).
      rewrite app_length in F.
      destruct (IH fuel s'' (acc ++ [i0]) (pre ++ w1) b1 w' e) as (s3 & acc3 & is3 & X);
        try lia; auto.
      { left; auto. }
      { eapply hinted_shrink; eauto. }
      rewrite <- app_assoc in X. rewrite app_length in X.
      exists s3, acc3, is3. destruct X as [(E3 & A3 & C3 & X)|X]; [left|right; exact X].
      rewrite E3. repeat split; auto.
      + now rewrite A3, <- app_assoc.
      + apply X; auto.
      + destruct w1; cbn; congruence.
  Qed.

  Arguments collectn_loop_cut {is fuel s} acc pre b {w' e} _ _ _ _.
  Lemma collectn_cuts : forall s w is,
    P s -> (len w <= isize_max)%N -> seq_fmt fmt w is ->
    cuts (collectn_decoder D) SD g
         (fun st => P (cn_inner st) /\ cn_remaining st = 0 /\ cn_items st = [])
         (collectn_new s (length is)) w is.
  Proof.
    assert (DEC : decodes D SD fmt P P).
    { intros s w i p F. eapply cuts_parses. apply CUT; eauto. }
    intros s w is Ps L SQ.
    exists (fun st w is => (len w <= isize_max)%N /\
      exists is', cn_remaining st = length is' /\
                  cn_items st ++ is' = is /\ cut_at (cn_inner st) w is'). split.
    2:{ split; auto. exists is; split; auto. split; auto. left; auto. }
    clear s w is Ps L SQ. constructor.
    - intros st w is (L & is' & A & B & C). exists (collectn_R D fmt P).
      split; [apply collectn_step; auto|]. split; auto. exists is'; repeat split; auto.
      now apply cut_at_coll.
    - intros [s r acc] is fuel buf w' e (L & is' & Er & Ei & C) id NE HI F. cbn in *. subst.
      destruct (collectn_loop_cut (e := e) acc [] buf C NE HI F) as (s3 & acc3 & is3 & [(E3 & A3 & C3 & X)|(E3 & X)]);
        cbn in E3; rewrite E3; eexists; [left|right]; (split; [reflexivity|]); auto. cbn.
      rewrite len_app in L.
      assert (is3 <> []) by (eapply coll_nonnil; [apply cut_at_coll; eauto|auto]).
      split; [destruct is3; [congruence|reflexivity]|]. split; auto. split; [lia|]. eauto.
  Qed.
End CollCut.

(** ** Terms *)
Definition dec_cuts {S A} (D : Decoder S A) (m : mode) (g : bool) (F : format A) (s0 : S)
    (again busy : bool) : Prop :=
  exists Pre Post : S -> Prop, (forall s w i, Pre s -> F w i -> cuts D m g Post s w i) /\ Pre s0 /\
    (again = true -> forall s, Post s -> Pre s) /\
    (busy = true -> forall s, Pre s -> dec_idle D s = false).
Definition code_cuts A (c : codec A) : Prop :=
  wf c -> forall g, reports g c -> delim c <> ToEos /\
  dec_cuts (decoder c) (delim c) g (reads c) (dec_fresh c) (dec_again c) (busy c).
Definition part_cuts A (p : parts A) : Prop :=
  pwf p -> forall g, preports g p -> pdelim p <> ToEos /\ parts_ok (psem_dec (psem p)) /\
  dec_cuts (tuple_of_dec_parts (psem_dec (psem p))) (pdelim p) g (preads p) (pdec0 (psem p))
           (pdec_again p) (pbusy p).

Lemma copy_term_cuts : forall n g, (N.of_nat n <= isize_max)%N ->
  forall s w b, num_ready n s -> (w = b /\ length b = n /\ fits w) ->
  cuts (copy_decoder vec_box) SD g (num_ready n) s w b.
Proof.
  intros n g L s w b R F. apply copy_cuts; [apply vec_box_ok|now apply (copy_ok L)|].
  destruct R as [R1 R2], F as (-> & F & _). unfold copy_left. rewrite R1. cbn. congruence.
Qed.
Lemma num_term_cuts : forall g T (item : list byte -> T) (fmt : format T) width,
  width <= 8 -> (forall w t, fmt w t -> length w = width /\ item w = t) ->
  forall s w t, num_ready width s -> fmt w t -> 
  cuts (num_decoder item) SD g (num_ready width) s w t.
Proof.
  intros g T item fmt width W H s w t R F. destruct (H w t F) as [L <-].
  apply num_cuts. apply copy_term_cuts; auto.
  - unfold isize_max; lia.
  - repeat split; auto. unfold fits, len, isize_max. lia.
Qed.
Lemma unum_term_cuts : forall g k s w n, num_ready (uwidth k) s -> num_bytes k n w ->
  cuts (udec k) SD g (num_ready (uwidth k)) s w n.
Proof.
  intros g k. destruct k; (apply (num_term_cuts g _ (fun w n => num_bytes _ n w)); [cbn; lia|]);
    intros w n [L V]; (split; [exact L|]); rewrite <- V;
    first [apply read_be_value | apply read_le_value].
Qed.
Lemma snum_term_cuts : forall g k s w z, num_ready (swidth k) s ->
  (length w = swidth k /\ twos_complement (swidth k) z (svalue k w)) ->
  cuts (sdec k) SD g (num_ready (swidth k)) s w z.
Proof.
  intros g k. destruct k; (apply (num_term_cuts g _ (fun w z => length w = swidth _ /\ twos_complement (swidth _) z (svalue _ w))); [cbn; lia|]);
    intros w n [L V]; (split; [exact L|]); apply as_signed_twos; try (cbn; lia);
    first [rewrite read_be_value | rewrite read_le_value]; exact V.
Qed.

Lemma dec_cuts_1 : forall S A (D : Decoder S A) m g (F : format A) s0 again busy (P : S -> Prop),
  (forall s w i, P s -> F w i -> cuts D m g P s w i) -> P s0 ->
  (busy = true -> forall s, P s -> dec_idle D s = false) ->
  dec_cuts D m g F s0 again busy.
Proof. intros. exists P, P; auto. Qed.
Lemma dec_cuts_again : forall S A (D : Decoder S A) m g (F : format A) s0 b,
  dec_cuts D m g F s0 true b -> exists P : S -> Prop,
    (forall s w i, P s -> F w i -> cuts D m g P s w i) /\ P s0.
Proof.
  intros S A D m g F s0 b (P & Q & H & H0 & HA & HB). exists P; split; auto.
  intros s w i p f. eapply cuts_post; [exact (HA eq_refl)|]. auto.
Qed.
Lemma dec_cuts_ext : forall S I (D D' : Decoder S I) m g F s0 a b,
  dec_sim D D' -> (forall s, dec_idle D' s = dec_idle D s) ->
  dec_cuts D m g F s0 a b -> dec_cuts D' m g F s0 a b.
Proof.
  intros S I D D' m g F s0 a b Sm Id (P & Q & H & K & A & B). exists P, Q; repeat split; auto.
  - intros s w i p f. eapply cuts_ext; eauto.
  - intros E s p. rewrite Id. auto.
Qed.
Lemma dec_cuts_pair : forall S0 S1 I0 I1 (D0 : Decoder S0 I0) (D1 : Decoder S1 I1) m g F0 F1 s0 s1 a0 b0 a1 b1,
  m <> ToEos ->
  dec_cuts D0 SD g F0 s0 a0 b0 -> dec_cuts D1 m g F1 s1 a1 b1 ->
  dec_cuts (tuple2_decoder D0 D1) m g (fun w i => fits w /\
      exists w0 w1, w = w0 ++ w1 /\ F0 w0 (fst i) /\ F1 w1 (snd i)) (s0, s1) (a0 && a1) (b0 || b1).
Proof.
  intros S0 S1 I0 I1 D0 D1 m g F0 F1 s0 s1 a0 b0 a1 b1 NT (P0 & Q0 & H0 & K0 & A0 & B0)
    (P1 & Q1 & H1 & K1 & A1 & B1).
  exists (fun s => P0 (fst s) /\ P1 (snd s)), (fun s => Q0 (fst s) /\ Q1 (snd s)).
  split; [|split; [auto|split]].
  - intros [t0 t1] w [i0 i1] [T0 T1] (L & w0 & w1 & -> & f0 & f1). cbn in T0, T1, f0, f1.
    apply pair_cuts; auto.
  - intros E. apply andb_prop in E. destruct E as [-> ->]. intros [t0 t1] [T0 T1]. auto.
  - intros E [t0 t1] [T0 T1]. cbn in *. apply orb_prop in E. destruct E as [->| ->].
    + rewrite B0; auto.
    + rewrite (B1 eq_refl); auto. apply andb_false_r.
Qed.
Lemma dec_cuts_and_then : forall S1 I1 k (D1 : Decoder S1 I1) (f : N -> S1) m g
    (F1 : N -> format I1) (F : format I1) Q1,
  m <> ToEos ->
  (forall w i, F w i -> fits w /\ exists w0 w1 n, w = w0 ++ w1 /\ num_bytes k n w0 /\ F1 n w1 i) ->
  (forall n w i, F1 n w i -> cuts D1 m g Q1 (f n) w i) ->
  dec_cuts (and_then_decoder (udec k) D1 f) m g F (and_then_new (udec0 k)) true true.
Proof.
  intros S1 I1 k D1 f m g F1 F Q1 NT HF H1.
  eapply dec_cuts_1 with (P := fun st => num_ready (uwidth k) (at_inner0 st) /\ at_inner1 st = None).
  - intros [s0 s1] w i [A B] f1. cbn in A, B. subst s1.
    destruct (HF w i f1) as (L & w0 & w1 & n & -> & X0 & X1).
    eapply cuts_post; [|eapply and_then_cuts with (P0 := num_ready (uwidth k)) (P1 := Q1) (i0 := n)]; auto.
    + eapply num_bytes_nonnil; eauto.
    + apply unum_term_cuts; auto.
  - cbn. split; auto. apply unum_fresh.
  - intros _ [s0 s1] [_ B]. cbn in *. now rewrite B.
Qed.

Lemma term_cuts :
  (forall A (c : codec A), code_cuts c) /\ (forall A (p : parts A), part_cuts p).
Proof.
  apply codec_parts_ind; unfold code_cuts, part_cuts, decoder, dec_fresh; cbn.
  - intros k _ g _. split; [discriminate|].
    eapply dec_cuts_1; [apply unum_term_cuts|apply unum_fresh|]. intros _. apply unum_idle.
  - intros k _ g _. split; [discriminate|].
    eapply dec_cuts_1; [apply snum_term_cuts|apply snum_fresh|]. intros _. apply snum_idle.
  - intros _ g _. split; [discriminate|].
    eapply dec_cuts_1 with (P := fun _ => True); [|exact I|discriminate].
    intros s w i _ ->. exists (fun s w i => parses null_decoder SD (fun _ => True) s w i). split.
    + constructor; auto. intros ? ? ? ? ? ? _ id. discriminate.
    + apply null_decodes; auto. reflexivity.
  - intros n L g _. split; [discriminate|].
    eapply dec_cuts_1; [apply copy_term_cuts; auto|apply num_ready_new|].
    intros E s R; eapply copy_idle; eauto.
  - intros n L g _. split; [discriminate|].
    exists (bytes_ready (repeat x00 n)), (fun st => bd_bytes st = None).
    four; [|now split|discriminate|].
    + intros s w i R (-> & K & _). apply bytes_cuts; [apply vec_box_ok| |].
      * eapply (@bytes_decodes _ vec_box vec_box_ok (repeat x00 n)); auto.
        -- cbn. rewrite len_repeat. exact L.
        -- split; cbn; auto. now rewrite repeat_length.
      * destruct R as [R1 R2]. exists (repeat x00 n). split; auto. rewrite R1. cbn.
        now rewrite repeat_length.
    + intros E [b off] [A B]. cbn in A, B. subst. destruct n; [discriminate|]. reflexivity.
  - intros _ g [].
  - intros _ g [].
  - intros n L g _. split; [discriminate|].
    eapply dec_cuts_1 with (P := num_ready n); [|apply num_ready_new|].
    + intros s w i r (U & K & Ft). eapply utf8_cuts; [apply (copy_term_cuts g L); auto|].
      now apply from_utf8_complete.
    + intros E s R. eapply copy_idle; eauto.
  - intros b n [N0 L] g ->. split; [discriminate|].
    eapply dec_cuts_1 with (P := fun st => pad_ready (Some b) (ln_inner st) /\
      ln_expected st = N.of_nat n /\ ln_remaining st = N.of_nat n); [|cbn; repeat split|].
    + intros [s0 ex rm] w i (R0 & R1 & R2) [-> Ft]. cbn in R0, R1, R2. subst ex rm.
      rewrite <- (len_repeat b n). eapply length_cuts. apply pad_decodes; auto.
      split; auto. intros c [= ->]. clear. induction n; cbn; auto.
    + intros _ [s0 ex rm] (R0 & _). cbn in *. rewrite R0. reflexivity.
  - intros A f g0 _ g [].
  - intros A p IH W g R. destruct (IH W g R) as (? & ? & ?). auto.
  - intros A B f g0 c IH W g R. destruct (IH W g R) as (M & P & Q & H & K & HA & HB).
    split; auto. exists P, Q; four; auto. intros s w b p (a & Wc & E). rewrite <- E.
    apply map_cuts. auto.
  - intros A B f g0 c IH W g R. destruct (IH W g R) as (M & P & Q & H & K & HA & HB).
    split; auto. exists P, Q; four; auto. intros s w b p (a & Wc & E).
    eapply try_map_cuts; eauto.
  - intros A f g0 c IH W g [FU R]. destruct (IH W g R) as (M & P & Q & H & K & HA & HB).
    split; auto. exists P, Q; four; auto. intros s w b p Wc.
    eapply map_err_cuts; eauto.
  - intros A omitted c IH [W _] g R. destruct omitted.
    + split; [discriminate|].
      exists (fun st => om_omit st = true), (fun st => om_omit st = true). four; auto.
      * intros [s b] w i E F. cbn in E; subst b. destruct i; destruct F as [E F]; [discriminate|].
        subst w. eapply cuts_post; [|apply omit_true_cuts]. intros ? ->; reflexivity.
      * intros E; discriminate.
    + destruct R as [R|R]; [discriminate|]. destruct (IH W g R) as (M & P & Q & H & K & HA & HB).
      split; auto.
      exists (fun st => om_omit st = false /\ P (om_inner st)), (fun st => om_omit st = false /\ Q (om_inner st)).
      four; [|now auto| |].
      * intros [s b] w i [E p] F. cbn in E, p; subst b. destruct i; destruct F as [E F]; [|discriminate].
        apply omit_false_cuts. auto.
      * intros E s [R0 R1]; auto.
      * cbn. intros E [s b] [E1 p]. cbn in *. subst. cbn. auto.
  - intros A n c _ W g ->. split; [discriminate|].
    destruct (proj1 term_dec_ok _ c W) as (P & Q & H & K & HA & HB).
    exists (fun st => P (ln_inner st) /\ ln_expected st = n /\ ln_remaining st = n),
           (fun st => Q (ln_inner st) /\ ln_expected st = n /\ ln_remaining st = n).
    four; [|now auto| |].
    + intros [s0 ex rm] w i (R0 & R1 & R2) [F <-]. cbn in R0, R1, R2. subst ex rm.
      eapply length_cuts; auto.
    + intros E s (R0 & R1 & R2); auto.
    + intros E [s0 ex rm] (R0 & _). cbn in *. apply HB; auto.
  - intros A n c _ [W _] g ->. split; [discriminate|].
    destruct (proj1 term_dec_ok _ c W) as (P & Q & H & K & HA & HB).
    exists (fun st => P (ln_inner st) /\ ln_expected st = n /\ ln_remaining st = n),
           (fun st => Q (ln_inner st) /\ ln_expected st = n /\ ln_remaining st = n).
    four; [|now auto| |].
    + intros [s0 ex rm] w i (R0 & R1 & R2) [F <-]. cbn in R0, R1, R2. subst ex rm.
      eapply length_cuts; auto.
    + intros E s (R0 & R1 & R2); auto.
    + intros E [s0 ex rm] (R0 & _). cbn in *. apply HB; auto.
  - intros A n c IH [W L] g R. destruct (IH W g R) as (M & P & Q & H & K & HA & HB).
    split; [destruct (delim c); congruence|].
    exists (fun st => P (mx_inner st) /\ mx_consumed st = 0%N /\ mx_max st = n),
           (fun st => Q (mx_inner st) /\ mx_consumed st = 0%N /\ mx_max st = n).
    four; [|now auto| |].
    + intros [s0 cs mx] w i (R0 & R1 & R2) [F Le]. cbn in R0, R1, R2. subst cs mx.
      eapply max_cuts; auto.
      * destruct (delim c); discriminate.
      * specialize (H s0 w i R0 F). destruct (delim c); auto. apply cuts_sd_exact; auto.
    + intros E s (R0 & R1 & R2); auto.
    + intros E [s0 cs mx] (R0 & _). cbn in *. apply HB; auto.
  - intros A c IH [W Bz] g R. destruct (IH W g R) as (M & P & Q & H & K & HA & HB).
    split; auto.
    exists (fun st => P (pk_inner st) /\ pk_item st = None),
           (fun st => Q (pk_inner st) /\ pk_item st = None).
    four; [|now auto| |].
    + intros [s0 it] w i (R0 & R1) F. cbn in R0, R1. subst it.
      apply peek_cuts; auto.
    + intros E s (R0 & R1); auto.
    + intros E [s0 it] (_ & R0). cbn in *. now rewrite R0.
  - intros A c _ _ g [].
  - intros A c IH [W _] g R. auto.
  - intros A c _ _ g [].
  - intros A n c IH (W & M & N0 & Da & _) g R. split; [discriminate|].
    destruct (IH W g R) as [_ IH']. rewrite Da in IH'.
    destruct (dec_cuts_again IH') as (P & H & K). rewrite M in H.
    exists (fun st => P (cn_inner st) /\ cn_remaining st = n /\ cn_items st = []),
           (fun st => P (cn_inner st) /\ cn_remaining st = 0 /\ cn_items st = []).
    four; [|now auto|discriminate|].
    + intros [s rm it] w i (R0 & R1 & R2) (Ft & Sq & L). cbn in R0, R1, R2. subst.
      eapply collectn_cuts; eauto. exact (proj1 nonempty_ok _ c N0).
    + intros E [s rm it] (_ & R1 & _). cbn in *. subst. destruct n; auto.
  - intros A k size c _ W g ->. split; [discriminate|].
    destruct (proj1 term_dec_ok _ c W) as (P & Q & H & K & HA & HB).
    eapply dec_cuts_and_then with (Q1 := fun _ => True) (F1 := fun n w i => reads c w i /\ len w = n);
      [discriminate|..].
    + intros w i (Ft & w0 & w1 & -> & Nb & Wc). split; auto. exists w0, w1, (len w1). auto.
    + intros n w i [Wc <-]. eapply cuts_post; [|eapply length_cuts; eapply H; eauto]. auto.
  - intros A k c IH (W & M & N0 & Da & _) g R. split; [discriminate|].
    destruct (IH W g R) as [_ IH']. rewrite Da in IH'.
    destruct (dec_cuts_again IH') as (P & H & K). rewrite M in H.
    eapply dec_cuts_and_then with (Q1 := fun _ => True)
      (F1 := fun n w l => fits w /\ sequence_of (reads c) w l /\ length l = N.to_nat n); [discriminate|..].
    + intros w i (Ft & w0 & w1 & -> & Nb & Wc). split; auto.
      exists w0, w1, (N.of_nat (length i)). repeat split; auto; try apply Nb.
      * unfold fits in *. rewrite len_app in Ft. lia.
      * lia.
    + intros n w i (Ft & Sq & L). rewrite <- L. eapply cuts_post; [|eapply collectn_cuts; eauto]; auto.
      exact (proj1 nonempty_ok _ c N0).
  - intros A k c IH (W & _ & M) g R. destruct (IH W g R) as (_ & P & Q & H & K & HA & HB).
    split; auto.
    eapply dec_cuts_and_then with (Q1 := fun _ => True)
      (F1 := fun n w o => match o with None => n = 0%N /\ w = [] | Some a => n <> 0%N /\ reads c w a end); auto.
    intros n w [a|] [N0 F].
      * replace (n =? 0)%N with false by lia.
        eapply cuts_post; [|apply omit_false_cuts; eapply H; eauto]. auto.
      * subst. cbn. eapply cuts_post; [|apply omit_true_cuts]. auto.
  - intros A B c IH c' IH' (W & W' & M) g (R & R').
    destruct (IH W g R) as [_ H]. destruct (IH' W' g R') as [M' H']. rewrite M in H.
    split; auto. split; [apply dp_snoc_ok, dp_one_ok|].
    exact (dec_cuts_pair M' H H').
  - intros A B p IH c IH' (W & W' & M) g (R & R').
    destruct (IH W g R) as (_ & PO & H). destruct (IH' W' g R') as [M' H']. rewrite M in H.
    split; auto. split; [apply dp_snoc_ok; auto|].
    eapply dec_cuts_ext; [apply tuple_snoc_eq; auto|reflexivity|].
    exact (dec_cuts_pair M' H H').
Qed.

(** ** Driving a decoder over a truncated stream *)
Lemma skipn_taken : forall (A : Type) k (t : list A), skipn (length (firstn k t)) t = skipn k t.
Proof.
  intros. rewrite firstn_length. destruct (le_lt_dec k (length t)).
  - now rewrite Nat.min_l.
  - rewrite Nat.min_r by lia. rewrite !skipn_all2; auto; lia.
Qed.
Lemma skipn_add : forall (A : Type) a b (t : list A), skipn a (skipn b t) = skipn (b + a) t.
Proof.
  intros A a b. induction b; intros t; cbn; auto. destruct t; auto. now rewrite skipn_nil.
Qed.
Lemma hint_hinted : forall m (t u : list byte) k h,
  (len t <= isize_max)%N -> u <> [] -> (m <> SD -> h <> HNever) ->
  hinted m (firstn k t) (skipn k t ++ u) (hint_eos h (skipn k t)).
Proof.
  intros m t u k h L NE EN. pose proof isize_u64. pose proof (length_nonnil NE).
  destruct h; cbn; auto.
  - rewrite len_app. split; [|unfold len; lia].
    rewrite <- (firstn_skipn k t), len_app in L. lia.
  - destruct m; auto; destruct EN; congruence.
Qed.
Lemma feed_cut : forall S I (D : Decoder S I) m g P fuel u i sched s t,
  cuts D m g P s (t ++ u) i -> u <> [] -> (m <> SD -> ends sched) -> length t < fuel ->
  exists s' rest r, feed D fuel s t sched = (s', rest, r) /\
    ((r = Ok tt /\ dec_idle D s' = false /\ rest = skipn (offered sched) t /\
      cuts D m g P s' (rest ++ u) i /\ told g (length t) sched = false) \/
     (r = Err UnexpectedEos /\ exists k, In (k, HExact) sched)).
Proof.
  intros S I D m g P fuel u i. induction sched as [|[k h] sched IH]; intros s t H NE EN F;
    pose proof (parses_len (cuts_parses H)) as L; rewrite len_app in L;
    (destruct (dec_idle D s) eqn:id;
     [destruct (parses_idle (cuts_parses H) id) as (N & _); destruct t, u; try discriminate; congruence|]).
  - cbn. do 3 eexists; split; [reflexivity|]. left; auto.
  - cbn [feed]. rewrite id.
    rewrite <- (firstn_skipn k t), <- app_assoc in H.
    assert (HI : hinted m (firstn k t) (skipn k t ++ u) (hint_eos h (skipn k t))).
    { apply hint_hinted; auto; [lia|]. intros NS. specialize (EN NS). inversion EN; auto. }
    assert (NE' : skipn k t ++ u <> []) by (destruct (skipn k t), u; cbn; congruence).
    assert (F' : length (firstn k t) < fuel) by (rewrite firstn_length; lia).
    destruct (cuts_cut H id NE' HI F') as (s' & [(X1 & X2 & X3 & X4)|(X1 & r & X2 & X3)]); rewrite X1.
    + rewrite skipn_taken.
      destruct (IH s' (skipn k t) X3 NE) as (s2 & rest & r & E & Y).
      { intros NS. specialize (EN NS). inversion EN; auto. }
      { rewrite skipn_length. lia. }
      exists s2, rest, r. split; auto.
      destruct Y as [(Y1 & Y2 & Y3 & Y4 & Y5)|(Y1 & k' & Y2)]; [left|right].
      * repeat split; auto.
        { rewrite Y3, skipn_add. cbn. reflexivity. }
        cbn [told]. rewrite skipn_length in Y5. rewrite Y5, orb_false_r.
        destruct h; auto. destruct (skipn k t) as [|x l] eqn:EK.
        -- cbn [hint_eos] in X4. destruct X4 as [-> X4]; [reflexivity|].
           destruct t; [|reflexivity]. rewrite firstn_nil in X4; congruence.
        -- assert (k < length t).
           { destruct (le_lt_dec (length t) k) as [Hk|]; auto. rewrite skipn_all2 in EK by auto. discriminate. }
           destruct g; [lia|]. destruct (Nat.eqb_spec (length t) 0); auto. lia.
      * split; auto. exists k'; cbn; auto.
    + do 3 eexists; split; [reflexivity|]. right. split; auto.
      destruct h; try discriminate. exists k; cbn; auto.
Qed.

(** [decode_exact] on a reader whose data ends too early; reads may be short, empty or fail. *)
Lemma decode_exact_cut : forall S I (D : Decoder S I) m g P ifuel i u fuel s t r,
  cuts D m g P s (t ++ u) i -> m <> ToEos -> u <> [] -> rd_data r = t ->
  length t < ifuel -> length t < fuel ->
  exists s' r' k, decode_exact D fuel ifuel s r = (s', r', Err k) /\
    (k = UnexpectedEos \/ exists e, In (RdErr e) (rd_plan r) /\ k = reported_kind e).
Proof.
  intros S I D m g P ifuel i u fuel. induction fuel as [|fuel IH]; intros s t r H NT NE RD IF F; [lia|].
  cbn [decode_exact].
  destruct (dec_idle D s) eqn:id.
  { destruct (parses_idle (cuts_parses H) id) as (N & _); destruct t, u; try discriminate; congruence. }
  pose proof (parses_req (cuts_parses H) id) as Q.
  pose proof (parses_len (cuts_parses H)) as LW.
  assert (NW : t ++ u <> []) by (destruct t, u; cbn; congruence).
  assert (Q' : exists q, dec_req D s = Ok q /\ 0 < exact_ask q).
  { pose proof (eq_refl : N.of_nat io_buf_size = 1024%N) as IO.
    destruct m; try congruence; cbn in Q; destruct (dec_req D s) as [[n| |]| | |]; try tauto;
      eexists; (split; [reflexivity|]); cbn [exact_ask]; try lia.
    all: destruct Q as [Q1 Q2]; destruct (N.eq_dec n 0) as [n0|]; [destruct (NW (Q2 n0))|];
      destruct (N.ltb_spec n (N.of_nat io_buf_size)); lia. }
  destruct Q' as (q & -> & A). cbn zeta. replace (exact_ask q =? 0) with false by lia.
  assert (STEP : forall j plan', 0 < j ->
    (forall e, In (RdErr e) plan' -> In (RdErr e) (rd_plan r)) ->
    exists s' r' k,
    match dec_decode D ifuel s (firstn j t) (eos_new (length (firstn j t) =? 0)) with
    | (s', Ok consumed) =>
        if consumed =? length (firstn j t) then
          if dec_idle D s' then
            let '(s'', item) := dec_finish D s' in (s'', mkReader (skipn j t) plan', item)
          else decode_exact D fuel ifuel s' (mkReader (skipn j t) plan')
        else (s', mkReader (skipn j t) plan', Err InconsistentState)
    | (s', x) => (s', mkReader (skipn j t) plan', rcast x)
    end = (s', r', Err k) /\
    (k = UnexpectedEos \/ exists e, In (RdErr e) (rd_plan r) /\ k = reported_kind e)).
  { intros j plan' J HP.
    pose proof H as H'. rewrite <- (firstn_skipn j t), <- app_assoc in H'.
    assert (NE' : skipn j t ++ u <> []) by (destruct (skipn j t), u; cbn; congruence).
    assert (F' : length (firstn j t) < ifuel) by (rewrite firstn_length; lia).
    set (e := eos_new (length (firstn j t) =? 0)).
    assert (HI : hinted m (firstn j t) (skipn j t ++ u) e).
    { unfold e. destruct (length (firstn j t) =? 0) eqn:Z; cbn; auto.
      apply Nat.eqb_eq, length_zero_iff_nil in Z. rewrite Z. rewrite len_nil.
      pose proof (length_nonnil NE'). unfold len. split; [cbv; discriminate|lia]. }
    destruct (cuts_cut H' id NE' HI F') as (s' & [(X1 & X2 & X3 & X4)|(X1 & X2)]); rewrite X1.
    - rewrite Nat.eqb_refl, X2.
      assert (T0 : t <> []).
      { intros ->. unfold e in X4. rewrite firstn_nil in X4. destruct (X4 eq_refl) as [_ Z]. now apply Z. }
      pose proof (length_nonnil T0).
      destruct (IH s' (skipn j t) (mkReader (skipn j t) plan') X3 NT NE eq_refl) as (s2 & r2 & k2 & Y1 & Y2);
        try (rewrite skipn_length; lia).
      exists s2, r2, k2. split; auto. destruct Y2 as [|(e0 & Y2 & Y3)]; auto. right; exists e0; auto.
    - cbn. do 3 eexists; split; [reflexivity|]. auto. }
  unfold rd_read. destruct r as [d plan]. cbn [rd_data rd_plan] in *. subst d.
  destruct plan as [|[n| |e] plan].
  - apply STEP; auto.
  - apply STEP; [lia|]. cbn; auto.
  - (* a read of 0 bytes *)
    cbn [length Nat.eqb].
    assert (HI : hinted m [] (t ++ u) (eos_new true)).
    { cbn. pose proof (length_nonnil NW). unfold len. split; [cbv; discriminate|lia]. }
    assert (F0 : length (@nil byte) < ifuel) by (cbn; lia).
    destruct (@cuts_cut _ _ _ _ _ _ _ _ _ [] _ _ H id NW HI F0) as (s' & [(X1 & X2 & X3 & X4)|(X1 & X2)]);
      rewrite X1.
    + destruct (X4 eq_refl) as [_ Z]. now destruct Z.
    + cbn. do 3 eexists; split; [reflexivity|]. auto.
  - do 3 eexists; split; [reflexivity|]. right; exists e; cbn; auto.
Qed.
