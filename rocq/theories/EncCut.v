(** * An encoder told that no room follows reports that its item does not fit. *)
From Verif Require Export UniverseProofs.
Set Implicit Arguments.

(** [T] describes the states of [E] in which it would output [w]; it is kept by calls that do not
    announce the end of the room, and a call that does fails when the item does not fit. *)
Record ecut_ok {S I} (E : Encoder S I) (f0 : nat) (P : S -> Prop) (T : S -> list byte -> Prop)
    : Prop := {
  ec_emits : forall s w, T s w -> emits E f0 P s w;
  ec_more : forall s w w' fuel buf e,
    T s (w ++ w') -> enc_idle E s = false -> length w = length buf -> w' <> [] ->
    is_reached e = false -> f0 + length buf < fuel ->
    exists s', enc_encode E fuel s buf e = (s', w, Ok (length buf)) /\
               enc_idle E s' = false /\ T s' w';
  ec_cut : forall s w fuel buf e,
    T s w -> enc_idle E s = false -> length buf < length w ->
    is_reached e = true -> f0 + length buf < fuel ->
    exists s' buf', enc_encode E fuel s buf e = (s', buf', Err UnexpectedEos) /\ enc_idle E s' = false
}.
Definition ecuts {S I} (E : Encoder S I) f0 P s w : Prop := exists T, ecut_ok E f0 P T /\ T s w.
Definition eaccepts {S I} (E : Encoder S I) (f0 : nat) (Post : S -> Prop) (s : S) (i : I)
    (w : list byte) : Prop :=
  forall fuel, f0 <= fuel -> exists s', enc_start E fuel s i = (s', Ok tt) /\ ecuts E f0 Post s' w.
Definition encuts {S I} (E : Encoder S I) (fmt : format I) (Pre Post : S -> Prop) : Prop :=
  forall w i, fmt w i -> exists f0, forall s, Pre s -> eaccepts E f0 Post s i w.

(** ** General facts *)
Lemma ecuts_emits : forall S I (E : Encoder S I) f0 P s w, ecuts E f0 P s w -> emits E f0 P s w.
Proof. intros S I E f0 P s w (T & [H _ _] & t). auto. Qed.
Lemma ecuts_more : forall S I (E : Encoder S I) f0 P s w w' fuel buf e,
  ecuts E f0 P s (w ++ w') -> enc_idle E s = false -> length w = length buf -> w' <> [] ->
  is_reached e = false -> f0 + length buf < fuel ->
  exists s', enc_encode E fuel s buf e = (s', w, Ok (length buf)) /\
             enc_idle E s' = false /\ ecuts E f0 P s' w'.
Proof.
  intros S I E f0 P s w w' fuel buf e (T & H & t) id L NE NR F.
  destruct (ec_more H _ _ _ _ t id L NE NR F) as (s' & ? & ? & ?).
  exists s'. repeat split; auto. exists T; auto.
Qed.
Arguments ecuts_more {S I E f0 P s w w' fuel buf e} _ _ _ _ _ _.
Lemma ecuts_cut : forall S I (E : Encoder S I) f0 P s w fuel buf e,
  ecuts E f0 P s w -> enc_idle E s = false -> length buf < length w ->
  is_reached e = true -> f0 + length buf < fuel ->
  exists s' buf', enc_encode E fuel s buf e = (s', buf', Err UnexpectedEos) /\ enc_idle E s' = false.
Proof. intros S I E f0 P s w fuel buf e (T & H & t). intros. eapply (ec_cut H); eauto. Qed.
Arguments ecuts_cut {S I E f0 P s w fuel buf e} _ _ _ _ _.

Lemma ecuts_fuel : forall S I (E : Encoder S I) f0 f1 P s w,
  f0 <= f1 -> ecuts E f0 P s w -> ecuts E f1 P s w.
Proof.
  intros S I E f0 f1 P s w L (T & [H1 H2 H3] & t). exists T; split; auto. constructor.
  - intros s0 w0 t0. eapply emits_fuel; eauto.
  - intros s0 w0 w' fuel buf e r0 id LW NE NR F. eapply H2; eauto; lia.
  - intros s0 w0 fuel buf e r0 id LW RE F. eapply H3; eauto; lia.
Qed.
Lemma eaccepts_fuel : forall S I (E : Encoder S I) f0 f1 P s i w,
  f0 <= f1 -> eaccepts E f0 P s i w -> eaccepts E f1 P s i w.
Proof.
  intros S I E f0 f1 P s i w L A fuel F. destruct (A fuel ltac:(lia)) as (s' & H & r).
  exists s'; split; auto. eapply ecuts_fuel; eauto.
Qed.
Lemma ecuts_post : forall S I (E : Encoder S I) f0 (P Q : S -> Prop) s w,
  (forall s, P s -> Q s) -> ecuts E f0 P s w -> ecuts E f0 Q s w.
Proof.
  intros S I E f0 P Q s w PQ (T & [H1 H2 H3] & t). exists T; split; auto.
  constructor; auto. intros s0 w0 t0. eapply emits_post; eauto.
Qed.
Lemma encuts_encodes : forall S I (E : Encoder S I) fmt P Q, encuts E fmt P Q -> encodes E fmt P Q.
Proof.
  intros S I E fmt P Q H w i F. destruct (H w i F) as (f0 & A). exists f0.
  intros s Ps fuel L. destruct (A s Ps fuel L) as (s' & X & Y). exists s'; split; auto.
  now apply ecuts_emits.
Qed.
Lemma encuts_sub : forall S I (E : Encoder S I) (F G : format I) (P Q P' Q' : S -> Prop),
  encuts E F P Q ->
  (forall w i, G w i -> F w i) -> (forall s, P' s -> P s) -> (forall s, Q s -> Q' s) ->
  encuts E G P' Q'.
Proof.
  intros S I E F G P Q P' Q' H HF HP HQ w i g. destruct (H w i (HF _ _ g)) as (f0 & K).
  exists f0. intros s p fuel L. destruct (K s (HP _ p) fuel L) as (s' & X & Y). exists s'; split; auto.
  eapply ecuts_post; eauto.
Qed.
Lemma rests_ecuts : forall S I (E : Encoder S I) P s, rests E P -> P s -> ecuts E 0 P s [].
Proof.
  intros S I E P s H Ps. exists (fun s w => w = [] /\ P s); split; auto. constructor.
  - intros s0 w [-> Ps0]. now apply rests_emits.
  - intros s0 w w' fuel buf e [_ Ps0] id. destruct (H s0 Ps0) as (Id & _). congruence.
  - intros s0 w fuel buf e [_ Ps0] id. destruct (H s0 Ps0) as (Id & _). congruence.
Qed.
Lemma idle_ecuts : forall S I (E : Encoder S I) f0 P s,
  emits E f0 P s [] -> enc_idle E s = true -> ecuts E f0 P s [].
Proof.
  intros S I E f0 P s H id. exists (fun s w => w = [] /\ emits E f0 P s [] /\ enc_idle E s = true).
  split; auto. constructor.
  - intros s0 w (-> & ? & _). auto.
  - intros s0 w w' fuel buf e (_ & _ & id') id0. congruence.
  - intros s0 w fuel buf e (_ & _ & id') id0. congruence.
Qed.
(** Two encoders with the same [encode], [is_idle] and requirement. *)
Lemma ecuts_ext : forall S I I' (E : Encoder S I) (E' : Encoder S I') f0 P s w,
  (forall fuel s buf e, enc_encode E' fuel s buf e = enc_encode E fuel s buf e) ->
  (forall s, enc_req E' s = enc_req E s) ->
  (forall s, enc_idle E' s = enc_idle E s) ->
  ecuts E f0 P s w -> ecuts E' f0 P s w.
Proof.
  intros S I I' E E' f0 P s w E1 E2 E3 (T & [H1 H2 H3] & t). exists T; split; auto. constructor.
  - intros s0 w0 t0. eapply emits_ext; eauto.
  - intros s0 w0 w' fuel buf e r0 id L NE NR F. rewrite E3 in id. rewrite E1.
    destruct (H2 _ _ _ _ _ _ r0 id L NE NR F) as (s' & ? & ? & ?). exists s'. rewrite E3. auto.
  - intros s0 w0 fuel buf e r0 id L RE F. rewrite E3 in id. rewrite E1.
    destruct (H3 _ _ _ _ _ r0 id L RE F) as (s' & b' & ? & ?). exists s', b'. rewrite E3. auto.
Qed.
Lemma encuts_sim : forall S I (E E' : Encoder S I) (fmt : format I) P Q,
  enc_sim E E' -> encuts E fmt P Q -> encuts E' fmt P Q.
Proof.
  intros S I E E' fmt P Q Sim H w i Ft. destruct (H w i Ft) as (f0 & A).
  exists f0. intros s Ps fuel F. destruct (A s Ps fuel F) as (s' & X1 & (T & [H1 H2 H3] & t)).
  exists s'. assert (Sim' := Sim). destruct Sim' as (E1 & E2 & E3 & E4). rewrite <- E2. split; auto.
  exists T; split; auto. constructor.
  - intros s0 w0 t0. eapply emits_sim; eauto.
  - intros s0 w0 w' fu buf e r0 id L NE NR FU. rewrite <- E4 in id. rewrite <- E1.
    destruct (H2 _ _ _ _ _ _ r0 id L NE NR FU) as (s1 & ? & ? & ?). exists s1. rewrite <- E4. auto.
  - intros s0 w0 fu buf e r0 id L RE FU. rewrite <- E4 in id. rewrite <- E1.
    destruct (H3 _ _ _ _ _ r0 id L RE FU) as (s1 & b1 & ? & ?). exists s1, b1. rewrite <- E4. auto.
Qed.

(** ** Primitives *)
Lemma bytes_ecut_ok : forall B (BX : ByteBox B),
  ecut_ok (bytes_encoder BX) 0 (@bytes_eidle B) (bytes_eR BX).
Proof.
  intros B BX. constructor.
  - intros s w H. exists (bytes_eR BX); split; auto. apply bytes_estep.
  - intros s w w' fuel buf e H id L NE NR F. exact (eo_more (bytes_estep BX) H id L NE NR F).
  - intros [[b|] off] w fuel buf e (L & H) id LW RE F; cbn in H, id; [|discriminate].
    destruct H as (pre & H & ->). unfold bytes_encoder, enc_encode, bytes_encode; cbn [be_bytes be_off].
    rewrite H, app_length. rewrite usize_sub_ok by lia.
    replace (Nat.min _ _) with (length buf) by lia.
    replace (_ =? _) with false by lia. rewrite RE. eauto.
Qed.
Lemma bytes_encuts : forall B (BX : ByteBox B),
  encuts (bytes_encoder BX) (bytes_efmt BX) (@bytes_eidle B) (@bytes_eidle B).
Proof.
  intros B BX w i [-> L]. exists 0. intros [b off] H. unfold bytes_eidle in H; cbn in H; subst b.
  exists (mkBytesEnc (Some i) 0). split; [reflexivity|].
  exists (bytes_eR BX); split; [apply bytes_ecut_ok|]. split; auto. cbn. exists []; auto.
Qed.
Lemma encodes_encuts : forall S I (E : Encoder S I) (fmt : format I) P Q,
  (forall f0 s w, emits E f0 Q s w -> ecuts E f0 Q s w) -> encodes E fmt P Q -> encuts E fmt P Q.
Proof.
  intros S I E fmt P Q X H w i F. destruct (H w i F) as (f0 & A). exists f0.
  intros s Ps fuel L. destruct (A s Ps fuel L) as (s' & Y & Z). exists s'. auto.
Qed.
Lemma num_ecuts : forall T (f : T -> list byte + ErrorKind) f0 Q s w,
  emits (num_encoder f) f0 Q s w -> ecuts (num_encoder f) f0 Q s w.
Proof.
  intros T f f0 Q s w H. exists (emits (num_encoder f) f0 Q). split; auto. constructor; auto.
  - intros s0 w0 w' fuel buf e H0 id LW NE NR F. exact (emits_more H0 id LW NE NR F).
  - intros [[b|] off] w0 fuel buf e H0 id LW RE F; [|discriminate].
    destruct (emits_req H0) as [X|[X _]]; cbn in X;
      (destruct (usize_sub (length b) off) as [k|] eqn:K; cbn in X; try discriminate).
    injection X as X. cbn. unfold bytes_encode; cbn [be_bytes be_off bx_ref vec_box]. rewrite K.
    unfold usize_sub in K. unfold len in X. destruct (off <=? length b) eqn:Y; [|discriminate]. injection K as <-.
    replace (Nat.min _ _) with (length buf) by lia. replace (_ =? _) with false by lia.
    rewrite RE. eauto.
Qed.
Lemma null_encuts : encuts null_encoder (fun w _ => w = []) (fun _ => True) (fun _ => True).
Proof.
  intros w i ->. exists 0. intros [] _. exists tt; split; [reflexivity|].
  exact (rests_ecuts _ null_rests I).
Qed.

(** ** map_from, try_map_from, map_err, optional *)
Lemma map_from_encuts : forall S I T (E : Encoder S I) (f : T -> I) (fmt : format I) P Q,
  encuts E fmt P Q -> encuts (map_from_encoder E f) (fun w t => fmt w (f t)) P Q.
Proof.
  intros S I T E f fmt P Q H w t Ft. destruct (H w (f t) Ft) as (f0 & A).
  exists f0. intros s Ps fuel F. destruct (A s Ps fuel F) as (s' & E1 & E2). exists s'; split; auto.
  eapply ecuts_ext with (E := E); auto.
Qed.
Lemma try_map_from_encuts : forall S I T (E : Encoder S I) (f : T -> I + ErrorKind) (fmt : format I) P Q,
  encuts E fmt P Q ->
  encuts (try_map_from_encoder E f) (fun w t => exists i, f t = inl i /\ fmt w i) P Q.
Proof.
  intros S I T E f fmt P Q H w t (i & Fi & Ft). destruct (H w i Ft) as (f0 & A).
  exists f0. intros s Ps fuel F. destruct (A s Ps fuel F) as (s' & E1 & E2). exists s'; split; auto.
  - cbn. rewrite Fi. auto.
  - eapply ecuts_ext with (E := E); auto.
Qed.
Lemma map_err_encuts : forall S I (E : Encoder S I) f (fmt : format I) P Q,
  f UnexpectedEos = UnexpectedEos ->
  encuts E fmt P Q -> encuts (map_err_encoder E f) fmt P Q.
Proof.
  intros S I E f fmt P Q FE H w i Ft. destruct (H w i Ft) as (f0 & A).
  exists f0. intros s Ps fuel F. destruct (A s Ps fuel F) as (s' & E1 & (T & [H1 H2 H3] & t)).
  exists s'; split.
  - cbn. rewrite E1; auto.
  - exists T; split; auto. constructor.
    + intros s0 w0 t0. apply map_err_emits; auto.
    + intros s0 w0 w' fu buf e r0 id L NE NR FU. cbn in *.
      destruct (H2 _ _ _ _ _ _ r0 id L NE NR FU) as (s1 & -> & ? & ?). eauto.
    + intros s0 w0 fu buf e r0 id L RE FU. cbn in *.
      destruct (H3 _ _ _ _ _ r0 id L RE FU) as (s1 & b1 & -> & ?). cbn. rewrite FE. eauto.
Qed.
Lemma optional_encuts : forall S I (E : Encoder S I) (fmt : format I) P,
  rests E P -> encuts E fmt P P ->
  encuts (optional_encoder E)
          (fun w o => match o with Some i => fmt w i | None => w = [] end) P P.
Proof.
  intros S I E fmt P Rs H w [i|] Ft.
  - destruct (H w i Ft) as (f0 & A). exists f0. intros s Ps fuel F. destruct (A s Ps fuel F) as (s' & E1 & E2).
    exists s'; split; auto. eapply ecuts_ext with (E := E); auto.
  - subst w. exists 0. intros s Ps fuel F. exists s; split; [reflexivity|].
    eapply ecuts_ext with (E := E); auto. apply rests_ecuts; auto.
Qed.

(** ** Tuples *)
Section EPairCut.
  Context {S0 S1 I0 I1 : Type} (E0 : Encoder S0 I0) (E1 : Encoder S1 I1) (f0 : nat)
          (P0 : S0 -> Prop) (P1 : S1 -> Prop).

  Definition epair_T (s : S0 * S1) (w : list byte) : Prop :=
    (len w <= isize_max)%N /\
    exists w0 w1, w = w0 ++ w1 /\ ecuts E0 f0 P0 (fst s) w0 /\ ecuts E1 f0 P1 (snd s) w1.

  Lemma epair_ecuts : forall s0 s1 w0 w1,
    (len (w0 ++ w1) <= isize_max)%N -> ecuts E0 f0 P0 s0 w0 -> ecuts E1 f0 P1 s1 w1 ->
    ecuts (tuple2_encoder E0 E1) f0 (fun s => P0 (fst s) /\ P1 (snd s)) (s0, s1) (w0 ++ w1).
  Proof.
    intros s0 s1 w0 w1 L H0 H1. exists epair_T; split; [|split; eauto 6]. clear.
    constructor.
    - intros [s0 s1] w (L & w0 & w1 & -> & H0 & H1). cbn in *.
      apply epair_emits; auto; now apply ecuts_emits.
    - intros [s0 s1] w w' fuel buf e (L & w0 & w1 & E & H0 & H1) id LW NE NR F.
      cbn in id, H0, H1. rewrite E in L. rewrite len_app in L.
      assert (G : forall s0' a bb, enc_idle E0 s0' = true -> ecuts E0 f0 P0 s0' [] ->
        w = w0 ++ a -> w1 = a ++ w' -> length bb = length buf -> firstn (length w0) bb = w0 ->
        exists s', (let '(t, buf0) := try_encode E1 fuel s1 (length w0) bb e in
             match t with
             | TGo s2 off1 => (s0', s2, buf0, Ok off1)
             | TRet s2 r => (s0', s2, buf0, r)
             end) = (s', w, Ok (length buf)) /\
          enc_idle E0 (fst s') && enc_idle E1 (snd s') = false /\ epair_T s' w').
      { intros s0' a bb id0 H0' -> -> LB FB. rewrite app_length in LW.
        destruct (enc_idle E1 s1) eqn:id1.
        { destruct (emits_idle (ecuts_emits H1) id1) as (N & _). destruct a, w'; cbn in N; congruence. }
        assert (SL : slice_from (length w0) bb = Some (skipn (length w0) bb)).
        { unfold slice_from. replace (length w0 <=? length bb) with true by lia. auto. }
        assert (LA : length a = length (skipn (length w0) bb)) by (rewrite skipn_length; lia).
        assert (F1 : f0 + length (skipn (length w0) bb) < fuel) by (rewrite skipn_length; lia).
        destruct (ecuts_more H1 id1 LA NE NR F1) as (s1' & X1 & id1' & H1').
        unfold try_encode. rewrite id1, SL, X1, id1', FB.
        eexists; split; [do 2 f_equal; rewrite skipn_length; lia|]. cbn.
        rewrite id1', andb_false_r. split; auto. split; [rewrite len_app in L; lia|].
        cbn. exists [], w'. auto. }
      cbn. unfold try_encode at 1.
      destruct (enc_idle E0 s0) eqn:id0.
      + destruct (emits_idle (ecuts_emits H0) id0) as (-> & _). cbn in E.
        destruct (G s0 w buf id0 H0 eq_refl (eq_sym E) eq_refl eq_refl) as (s' & X & Y & Z).
        exists s'. split; auto. cbn in X. rewrite <- X.
        destruct (try_encode E1 fuel s1 0 buf e) as [[] ?]; reflexivity.
      + rewrite slice_from_0.
        destruct (app_cases _ _ _ _ (eq_sym E)) as [(w0' & -> & -> & NE0)|(b1 & -> & ->)].
        * destruct (ecuts_more H0 id0 LW NE0 NR F) as (s0' & X0 & id0' & H0').
          rewrite X0, id0'. exists (s0', s1). cbn. rewrite id0'. repeat split; auto.
          { cbn. rewrite len_app in *. lia. }
          exists w0', w1; auto.
        * rewrite app_length in LW.
          destruct (emits_last e (ecuts_emits H0) id0 (buf := buf) ltac:(lia) F) as (s0' & X0 & id0' & H0').
          rewrite X0, id0'. cbn [Nat.add firstn app].
          destruct (G s0' b1 (w0 ++ skipn (length w0) buf) id0') as (s' & X & Y & Z); auto.
          { apply idle_ecuts; auto. }
          { rewrite app_length, skipn_length; lia. }
          { apply firstn_app_exact. }
          exists s'; split; auto. rewrite <- X.
          destruct (try_encode E1 fuel s1 (length w0) _ e) as [[] ?]; reflexivity.
    - intros [s0 s1] w fuel buf e (L & w0 & w1 & -> & H0 & H1) id LW RE F.
      cbn in id, H0, H1. rewrite app_length in LW.
      cbn. unfold try_encode at 1.
      assert (G : forall bb, length bb = length buf -> length w0 <= length buf ->
        exists s1' b', try_encode E1 fuel s1 (length w0) bb e = (TRet s1' (Err UnexpectedEos), b') /\
          enc_idle E1 s1' = false).
      { intros bb LB LE. unfold try_encode.
        destruct (enc_idle E1 s1) eqn:id1.
        { destruct (emits_idle (ecuts_emits H1) id1) as (-> & _). cbn in LW. lia. }
        assert (SL : slice_from (length w0) bb = Some (skipn (length w0) bb)).
        { unfold slice_from. replace (length w0 <=? length bb) with true by lia. auto. }
        rewrite SL.
        destruct (ecuts_cut (buf := skipn (length w0) bb) (fuel := fuel) (e := e) H1 id1)
          as (s1' & b' & -> & ?); auto; try (rewrite skipn_length; lia). eauto. }
      destruct (enc_idle E0 s0) eqn:id0.
      + destruct (emits_idle (ecuts_emits H0) id0) as (-> & _).
        destruct (G buf eq_refl ltac:(cbn; lia)) as (s1' & b' & X & Y). cbn [length] in X. rewrite X.
        do 2 eexists. split; [reflexivity|]. cbn. now rewrite Y, andb_false_r.
      + rewrite slice_from_0. destruct (le_lt_dec (length w0) (length buf)) as [LE|LT].
        * destruct (emits_last e (ecuts_emits H0) id0 (buf := buf) LE F) as (s0' & X0 & id0' & H0').
          rewrite X0, id0'. cbn [Nat.add firstn app].
          destruct (G (w0 ++ skipn (length w0) buf)) as (s1' & b' & X & Y); auto.
          { rewrite app_length, skipn_length; lia. }
          rewrite X. do 2 eexists. split; [reflexivity|]. cbn. now rewrite Y, andb_false_r.
        * destruct (ecuts_cut H0 id0 LT RE F) as (s0' & b' & -> & Y). cbn. do 2 eexists. split; [reflexivity|].
          cbn. now rewrite Y.
  Qed.
End EPairCut.

Lemma pair_encuts : forall S0 S1 I0 I1 (E0 : Encoder S0 I0) (E1 : Encoder S1 I1)
    (fmt0 : format I0) (fmt1 : format I1) P0 P1 Q0 Q1,
  encuts E0 fmt0 P0 Q0 -> encuts E1 fmt1 P1 Q1 ->
  encuts (tuple2_encoder E0 E1) (pair_fmt fmt0 fmt1)
          (fun s => P0 (fst s) /\ P1 (snd s)) (fun s => Q0 (fst s) /\ Q1 (snd s)).
Proof.
  intros S0 S1 I0 I1 E0 E1 fmt0 fmt1 P0 P1 Q0 Q1 H0 H1 w [i0 i1] (L & w0 & w1 & -> & F0 & F1).
  destruct (H0 w0 i0 F0) as (f0 & A0). destruct (H1 w1 i1 F1) as (f1 & A1).
  exists (f0 + f1). intros [s0 s1] [p0 p1] fuel F.
  destruct (A0 s0 p0 fuel ltac:(lia)) as (s0' & X0 & Y0).
  destruct (A1 s1 p1 fuel ltac:(lia)) as (s1' & X1 & Y1).
  exists (s0', s1'). split.
  - cbn in *. rewrite X0, X1. reflexivity.
  - apply epair_ecuts; auto; (eapply ecuts_fuel; [|eassumption]; lia).
Qed.
Lemma snoc_encuts : forall S I S' I' (PP : EncParts S I) (E : Encoder S' I')
    (fmt0 : format I) (fmt1 : format I') P0 P1 Q0 Q1,
  eparts_ok PP ->
  encuts (tuple_of_enc_parts PP) fmt0 P0 Q0 -> encuts E fmt1 P1 Q1 ->
  encuts (tuple_of_enc_parts (ep_snoc PP E)) (pair_fmt fmt0 fmt1)
          (fun s => P0 (fst s) /\ P1 (snd s)) (fun s => Q0 (fst s) /\ Q1 (snd s)).
Proof.
  intros. eapply encuts_sim; [apply etuple_snoc_sim; auto|]. now apply pair_encuts.
Qed.

(** ** length: it checks the room itself, whatever it contains. *)
Lemma length_cut : forall S I (E : Encoder S I) fuel st buf e,
  (len buf < ln_remaining st)%N -> is_reached e = true ->
  enc_encode (length_encoder E) fuel st buf e = (st, buf, Err UnexpectedEos).
Proof.
  intros S I E fuel st buf e L RE. cbn. unfold length_encode.
  replace (len buf <? ln_remaining st)%N with true by lia. now rewrite RE.
Qed.
Lemma elength_ecuts : forall S I (E : Encoder S I) f0 Q s w,
  emits (length_encoder E) f0 Q s w -> ecuts (length_encoder E) f0 Q s w.
Proof.
  intros S I E f0 Q s w H. exists (emits (length_encoder E) f0 Q). split; auto. constructor; auto.
  - intros s0 w0 w' fuel buf e H0 id LW NE NR F. exact (emits_more H0 id LW NE NR F).
  - intros s0 w0 fuel buf e H0 id LW RE F. exists s0, buf. split; auto. apply length_cut; auto.
    destruct (emits_req H0) as [X|[X _]]; cbn in X; [|discriminate]. injection X as X. unfold len in *. lia.
Qed.

(** ** max_bytes *)
Lemma emax_encuts : forall S I (E : Encoder S I) (fmt : format I) P Q mx,
  (mx <= u64_max)%N -> encuts E fmt P Q ->
  encuts (max_encoder E) (fun w i => fmt w i /\ (len w <= mx)%N)
          (fun st => P (mx_inner st) /\ mx_consumed st = 0%N /\ mx_max st = mx)
          (fun st => Q (mx_inner st) /\ mx_consumed st = 0%N /\ mx_max st = mx).
Proof.
  intros S I E fmt P Q mx MX H w i [Ft L]. destruct (H w i Ft) as (f0 & A).
  exists f0. intros [s c x] (Ps & Hc & Hx) fuel F. cbn in *; subst c x.
  destruct (A s Ps fuel F) as (s' & X1 & X2). exists (mkMax s' 0 mx). split.
  - cbn. rewrite X1. reflexivity.
  - clear - X2 L MX.
    set (Q' := fun st => Q (mx_inner st) /\ mx_consumed st = 0%N /\ mx_max st = mx).
    exists (fun st w => ecuts E f0 Q (mx_inner st) w /\ emits (max_encoder E) f0 Q' st w /\
              (mx_consumed st + len w <= mx)%N /\ mx_max st = mx).
    split; [|split; [auto|split; [apply emax_emits; auto; now apply ecuts_emits|cbn; lia]]].
    constructor.
    + intros s0 w0 (_ & ? & _). auto.
    + intros [s0 c x] w0 w' fuel buf e (T & EM & LE & X) id LW NE NR F.
      destruct (emits_more EM id LW NE NR F) as (s1 & X1 & id1 & EM1). exists s1.
      split; auto. split; auto. cbn in T, LE, X, X1, id. subst x.
      destruct (ecuts_more T id LW NE NR F) as (s2 & X3 & id3 & T3).
      unfold max_encode in X1. cbn in X1. rewrite X3, id3 in X1. rewrite len_app in LE.
      rewrite u64_add_ok in X1 by (unfold len in *; lia).
      replace (_ <=? _)%N with true in X1 by (unfold len in *; lia).
      injection X1 as <-. cbn. split; auto. split; auto. split; auto. unfold len in *; lia.
    + intros [s0 c x] w0 fuel buf e (T & EM & LE & X) id LW RE F. cbn in *.
      destruct (ecuts_cut T id LW RE F) as (s2 & b2 & X3 & Y3). unfold max_encode. cbn. rewrite X3. eauto.
Qed.

(** ** repeat *)
Section RepCut.
  Context {S I : Type} (E : Encoder S I) (f0 : nat) (P : S -> Prop) (RS : rests E P).

  Definition cut_items (ws : list (list byte)) (is : list I) : Prop :=
    Forall2 (fun w i => w <> [] /\ forall s, P s -> eaccepts E f0 P s i w) ws is.
  Definition rep_T (st : Repeat S I) (w : list byte) : Prop :=
    (len w <= isize_max)%N /\
    match rp_items st with
    | None => w = [] /\ P (rp_inner st)
    | Some is => exists w1 ws, w = w1 ++ concat ws /\ ecuts E f0 P (rp_inner st) w1 /\
                   cut_items ws is /\ (w1 = [] -> P (rp_inner st))
    end.
  Lemma cut_rep_items : forall ws is, cut_items ws is -> rep_items E f0 P ws is.
  Proof.
    intros ws is H. induction H as [|w i ws is [NE A] H IH]; constructor; auto. split; auto.
    intros s Ps fuel F. destruct (A s Ps fuel F) as (s' & X & Y). exists s'; split; auto.
    now apply ecuts_emits.
  Qed.
  Lemma rep_T_R : forall st w, rep_T st w -> rep_R E f0 P st w.
  Proof.
    intros [s [is|]] w [L H]; split; auto. cbn in *. destruct H as (w1 & ws & X & H & HI & HP).
    exists w1, ws. split; auto. split; [now apply ecuts_emits|]. split; auto. now apply cut_rep_items.
  Qed.

  Lemma rep_cut_pull : forall s w1 ws is fuel,
    ecuts E f0 P s w1 -> (w1 = [] -> P s) -> cut_items ws is -> f0 <= fuel ->
    (w1 = [] /\ ws = []) \/
    (exists s' w1' ws' is', w1 ++ concat ws = w1' ++ concat ws' /\ w1' <> [] /\
       repeat_pull E fuel s is = PullGo s' is' /\
       ecuts E f0 P s' w1' /\ enc_idle E s' = false /\ cut_items ws' is').
  Proof.
    intros s w1 ws is fuel H HP HI F.
    destruct (nil_or_not w1) as [->|NE].
    - specialize (HP eq_refl). destruct (RS HP) as (id & _).
      inversion HI as [|w i ws' is' [NW AC] HI']; subst.
      + left. auto.
      + right. destruct (AC s HP fuel F) as (s' & ST & H'). exists s', w, ws', is'.
        assert (id' : enc_idle E s' = false).
        { destruct (enc_idle E s') eqn:X; auto.
          destruct (emits_idle (ecuts_emits H') X) as [? _]. contradiction. }
        cbn. rewrite id, ST. split; auto. split; auto. split; auto.
        destruct is'; cbn; rewrite id'; auto.
    - right. exists s, w1, ws, is.
      assert (id' : enc_idle E s = false).
      { destruct (enc_idle E s) eqn:X; auto.
        destruct (emits_idle (ecuts_emits H) X) as [? _]. contradiction. }
      split; auto. split; auto. split; auto. destruct is; cbn; rewrite id'; auto.
  Qed.

  Lemma rep_cut_more : forall n fuel is s w1 ws pre w b w' e,
    ecuts E f0 P s w1 -> (w1 = [] -> P s) -> cut_items ws is ->
    w1 ++ concat ws = w ++ w' -> length w = length b -> w' <> [] ->
    is_reached e = false -> length b < n -> f0 + length b < fuel ->
    exists s' w1' ws' is',
      repeat_loop E n fuel (mkRepeat s (Some is)) (length pre) (pre ++ b) e
      = (mkRepeat s' (Some is'), pre ++ w, Ok (length (pre ++ b))) /\
      w' = w1' ++ concat ws' /\ ecuts E f0 P s' w1' /\ (w1' = [] -> P s') /\ cut_items ws' is'.
  Proof.
    induction n as [|n IH]; intros fuel is s w1 ws pre w b w' e H HP HI EQ LW NE NR N F; [lia|].
    cbn [repeat_loop rp_items rp_inner].
    destruct (rep_cut_pull (fuel := fuel) H HP HI ltac:(lia)) as [(-> & ->)|X].
    { cbn in EQ. symmetry in EQ. apply app_eq_nil in EQ. tauto. }
    destruct X as (s1 & u1 & us & js & EQ' & NU & -> & H1 & id1 & HI1).
    rewrite slice_from_app. rewrite EQ' in EQ.
    destruct (app_cases _ _ _ _ EQ) as [(u1' & -> & EW & NU')|(b1 & EW & EC)].
    - destruct (ecuts_more H1 id1 LW NU' NR F) as (s2 & -> & id2 & H2).
      rewrite firstn_app_exact.
      destruct (length b =? 0) eqn:B0.
      + exists s2, u1', us, js. rewrite app_length. split; auto. split; auto. split; auto. split; auto.
        intros X; contradiction.
      + destruct (IH fuel js s2 u1' us (pre ++ w) [] [] w' e H2) as (s3 & v1 & vs & ks & X & Y);
          auto; try (cbn; lia).
        { intros X; contradiction. }
        exists s3, v1, vs, ks. rewrite !app_nil_r in X. rewrite app_length in *. rewrite <- LW. rewrite X. split; auto.
    - subst w. rewrite app_length in LW.
      destruct (emits_last e (ecuts_emits H1) id1 (buf := b) (fuel := fuel) ltac:(lia) ltac:(lia))
        as (s2 & -> & id2 & H2).
      rewrite firstn_app_exact. pose proof (length_nonnil NU).
      replace (length u1 =? 0) with false by lia.
      destruct (IH fuel js s2 [] us (pre ++ u1) b1 (skipn (length u1) b) w' e (idle_ecuts H2 id2))
        as (s3 & v1 & vs & ks & X & Y); auto; try (rewrite skipn_length; lia).
      { intros _. apply (emits_idle H2 id2). }
      exists s3, v1, vs, ks. rewrite app_length in X. rewrite !app_assoc. rewrite X. split; auto.
      do 2 f_equal. rewrite !app_length, skipn_length. lia.
  Qed.

  Lemma rep_cut_cut : forall n fuel is s w1 ws pre b e,
    ecuts E f0 P s w1 -> (w1 = [] -> P s) -> cut_items ws is ->
    length b < length (w1 ++ concat ws) -> is_reached e = true -> length b < n -> f0 + length b < fuel ->
    exists s' b', repeat_loop E n fuel (mkRepeat s (Some is)) (length pre) (pre ++ b) e
      = (s', b', Err UnexpectedEos) /\ enc_idle (repeat_encoder E) s' = false.
  Proof.
    induction n as [|n IH]; intros fuel is s w1 ws pre b e H HP HI LW RE N F; [lia|].
    cbn [repeat_loop rp_items rp_inner].
    destruct (rep_cut_pull (fuel := fuel) H HP HI ltac:(lia)) as [(-> & ->)|X].
    { cbn in LW. lia. }
    destruct X as (s1 & u1 & us & js & EQ' & NU & -> & H1 & id1 & HI1).
    rewrite slice_from_app. rewrite EQ', app_length in LW.
    destruct (le_lt_dec (length u1) (length b)) as [LE|LT].
    - destruct (emits_last e (ecuts_emits H1) id1 (buf := b) (fuel := fuel) LE ltac:(lia))
        as (s2 & -> & id2 & H2).
      rewrite firstn_app_exact. pose proof (length_nonnil NU).
      replace (length u1 =? 0) with false by lia.
      destruct (IH fuel js s2 [] us (pre ++ u1) (skipn (length u1) b) e (idle_ecuts H2 id2))
        as (s3 & b3 & X & Y); auto; try (cbn; rewrite skipn_length; lia).
      { intros _. apply (emits_idle H2 id2). }
      rewrite app_length in X. rewrite !app_assoc. rewrite X. eauto.
    - destruct (ecuts_cut H1 id1 LT RE F) as (s2 & b2 & -> & Y). eauto.
  Qed.

  Lemma rep_ecut_ok : ecut_ok (repeat_encoder E) f0
    (fun st => P (rp_inner st) /\ rp_items st = None) rep_T.
  Proof.
    constructor.
    - intros st w H. eexists; split; [apply (rep_estep f0 RS)|]. now apply rep_T_R.
    - intros [s [is|]] w w' fuel buf e [L H] id LW NE NR F; cbn in id; [|discriminate].
      cbn in H. destruct H as (w1 & ws & EQ & H & HI & HP).
      destruct (@rep_cut_more fuel fuel is s w1 ws [] w buf w' e H HP HI (eq_sym EQ) LW NE NR ltac:(lia) F)
        as (s' & u1 & us & js & X & EW & H' & HP' & HI').
      exists (mkRepeat s' (Some js)). cbn [app length] in X. split; [exact X|]. split; auto.
      split; [rewrite len_app in L; lia|]. cbn. exists u1, us. auto.
    - intros [s [is|]] w fuel buf e [L H] id LW RE F; cbn in id; [|discriminate].
      cbn in H. destruct H as (w1 & ws & -> & H & HI & HP).
      exact (@rep_cut_cut fuel fuel is s w1 ws [] buf e H HP HI LW RE ltac:(lia) F).
  Qed.
End RepCut.
Lemma repeat_encuts : forall S I (E : Encoder S I) (fmt : format I) P,
  rests E P -> encuts E fmt P P -> (forall w i, fmt w i -> w <> []) ->
  encuts (repeat_encoder E) (eseq_fmt fmt)
          (fun st => P (rp_inner st) /\ rp_items st = None)
          (fun st => P (rp_inner st) /\ rp_items st = None).
Proof.
  intros S I E fmt P RS ENC NEF w is (L & ws & -> & F2).
  destruct (@forall2_max I ws is (fun f0 w i => w <> [] /\ forall s, P s -> eaccepts E f0 P s i w))
    as (f0 & H).
  { intros a b w i LE [? A]. split; auto. intros s PP. eapply eaccepts_fuel; eauto. }
  { clear L. induction F2; constructor; auto. destruct (ENC _ _ H) as (f0 & A). exists f0. split; auto.
    eapply NEF; eauto. }
  exists f0. intros [s o] [PP X] fuel F. cbn in PP, X. subst o.
  exists (mkRepeat s (Some is)). split; auto.
  eexists; split; [apply (rep_ecut_ok f0 RS)|].
  split; auto. cbn. exists [], ws. split; auto. split; auto.
  eapply ecuts_fuel; [|apply rests_ecuts; eauto]; lia.
Qed.

(** ** pre_encode: whatever the encoder, it then outputs a byte sequence. *)
Lemma pre_encuts : forall S I (E : Encoder S I) (fmt : format I) P,
  rests E P -> encodes E fmt P P -> encuts (pre_encoder E) fmt (pre_idle P) (pre_idle P).
Proof.
  intros S I E fmt P RS ENC w i F.
  destruct (ENC w i F) as (f0 & A). exists (f0 + length w + io_buf_size + 1).
  intros [s b] [PP H]. cbn in PP. unfold bytes_eidle in H. cbn in H.
  intros fuel F'. destruct (encode_into_bytes_ok (fuel := fuel) RS (A s PP) ltac:(lia)) as (s' & X & PS).
  exists (mkPre s' (mkBytesEnc (Some w) 0)). split.
  - cbn. unfold pre_start. cbn. rewrite X. unfold bytes_start, bytes_enc_idle.
    rewrite H. reflexivity.
  - eapply ecuts_fuel with (f0 := 0); [lia|].
    exists (fun st w => P (pre_inner st) /\ bytes_eR vec_box (pre_encoded st) w). split.
    + constructor.
      * intros s0 w0 H0. eexists; split; [apply pre_estep|]. auto.
      * intros s0 w0 w' fu buf e H0 id LW NE NR FU. exact (eo_more (pre_estep E P) H0 id LW NE NR FU).
      * intros [s0 b0] w0 fu buf e [P0 H0] id LW RE FU. cbn in *.
        destruct (@ec_cut _ _ _ _ _ _ (bytes_ecut_ok vec_box) b0 w0 fu buf e H0 id LW RE FU) as (s1 & b1 & X1 & Y1).
        cbn in X1. rewrite X1. eauto.
    + cbn. split; auto. destruct (A s PP f0 ltac:(lia)) as (? & _ & EM).
      split; [exact (emits_len EM)|]. cbn. exists []. auto.
Qed.

(** ** Terms *)

(** The terms whose encoder reports a lack of room in the call that announces it.
    [MonolithicEncoder] writes its item in one go and looks at the end of the room only in later
    calls. *)
Fixpoint ereports {A} (c : codec A) : Prop :=
  match c with
  | CU _ | CS _ | CNull | CBytes _ | CBytesOnce _ | CRest | CUtf8Rest | CUtf8 _ | CPad _ _ => True
  | CMono _ _ => False
  | CTuple p => pereports p
  | CMap _ _ c => ereports c
  | CTryMap _ _ c => ereports c
  | CMapErr _ g c => g UnexpectedEos = UnexpectedEos /\ ereports c
  | COpt _ c => ereports c
  | CLen _ c => ereports c
  | CLen2 _ _ => True
  | CMax _ c => ereports c
  | CPeek c => ereports c
  | CMaybe c => ereports c
  | CPre _ => True
  | CSeq c => ereports c
  | CSeqN _ c => ereports c
  | CPrefixed _ _ c => ereports c
  | CCounted _ c => ereports c
  | CFlagged _ c => ereports c
  end
with pereports {A} (p : parts A) : Prop :=
  match p with
  | PTwo c c' => ereports c /\ ereports c'
  | PSnoc p c => pereports p /\ ereports c
  end.

Definition cut_ok {S A} (E : Encoder S A) (F : format A) (s0 : S) (again : bool) : Prop :=
  exists Pre Post, encuts E F Pre Post /\ Pre s0 /\
    (again = true -> rests E Pre /\ forall s, Post s -> Pre s).
Lemma cut_ok_again : forall S A (E : Encoder S A) F s0,
  cut_ok E F s0 true -> exists P, encuts E F P P /\ P s0 /\ rests E P.
Proof.
  intros S A E F s0 (P & Q & H & H0 & HA). destruct HA as [R HA]; auto.
  exists P; repeat split; try (apply R; auto); auto. eapply encuts_sub; eauto.
Qed.
Lemma cut_ok_1 : forall S A (E : Encoder S A) F s0 again (P : S -> Prop),
  encuts E F P P -> P s0 -> rests E P -> cut_ok E F s0 again.
Proof. intros. exists P, P; auto. Qed.
Lemma cut_ok_sub : forall S I (E : Encoder S I) (F G : format I) s0 a,
  cut_ok E F s0 a -> (forall w i, G w i -> F w i) -> cut_ok E G s0 a.
Proof.
  intros S I E F G s0 a (P & Q & H & K & HA) FG. exists P, Q; split; [|auto].
  eapply encuts_sub; eauto.
Qed.
Lemma cut_pair : forall S0 S1 I0 I1 (E0 : Encoder S0 I0) (E1 : Encoder S1 I1) F0 F1 s0 s1 a0 a1,
  cut_ok E0 F0 s0 a0 -> cut_ok E1 F1 s1 a1 ->
  cut_ok (tuple2_encoder E0 E1) (pair_fmt F0 F1) (s0, s1) (a0 && a1).
Proof.
  intros S0 S1 I0 I1 E0 E1 F0 F1 s0 s1 a0 a1 (P0 & Q0 & H0 & K0 & A0) (P1 & Q1 & H1 & K1 & A1).
  exists (fun s => P0 (fst s) /\ P1 (snd s)), (fun s => Q0 (fst s) /\ Q1 (snd s)).
  split; [|split].
  - apply pair_encuts; auto.
  - auto.
  - intros E. apply andb_prop in E. destruct E as [-> ->]. destruct A0, A1; auto.
    split; [apply pair_rests; auto|]. intros s [T0 T1]. auto.
Qed.
Lemma cut_map : forall S I T (E : Encoder S I) (f : T -> I) F (G : format T) s0 a,
  cut_ok E F s0 a -> (forall w t, G w t -> F w (f t)) -> cut_ok (map_from_encoder E f) G s0 a.
Proof.
  intros S I T E f F G s0 a (P & Q & H & K & HA) FG. exists P, Q; split; [|split; auto].
  - eapply encuts_sub; [apply (map_from_encuts f H)|..]; auto.
Qed.
Lemma cut_optional : forall S I (E : Encoder S I) F s0,
  cut_ok E F s0 true ->
  cut_ok (optional_encoder E)
    (fun w o => match o with Some i => F w i | None => w = [] end) s0 true.
Proof.
  intros S I E F s0 H. destruct (cut_ok_again H) as (P & H1 & H2 & H3).
  eapply cut_ok_1; [apply optional_encuts; eauto|auto|apply optional_rests; auto].
Qed.
Lemma cut_repeat : forall S I (E : Encoder S I) F s0,
  cut_ok E F s0 true -> (forall w i, F w i -> w <> []) ->
  cut_ok (repeat_encoder E) (eseq_fmt F) (repeat_new s0) true.
Proof.
  intros S I E F s0 H NE. destruct (cut_ok_again H) as (P & H1 & H2 & H3).
  eapply cut_ok_1; [apply repeat_encuts; eauto|cbn; auto|apply repeat_rests; auto].
Qed.
Lemma bytes_cut_ok : forall (F : format (list byte)), (forall w i, F w i -> w = i /\ fits w) ->
  cut_ok (bytes_encoder vec_box) F bytes_enc_new true.
Proof.
  intros F HF. eapply cut_ok_1 with (P := @bytes_eidle _); [|reflexivity|apply bytes_rests].
  eapply encuts_sub; [apply bytes_encuts|..]; auto.
Qed.
Lemma utf8_cut_ok : forall (F : format (list N)), (forall w i, F w i -> utf8 i w /\ fits w) ->
  cut_ok utf8_encoder F utf8_enc_new true.
Proof.
  intros F HF. eapply cut_ok_1 with (P := @bytes_eidle _); [|reflexivity|apply utf8_rests].
  eapply encuts_sub; [apply (@bytes_encuts _ utf8_box)|..]; auto. intros w i f. destruct (HF _ _ f) as [U L].
  split; auto. cbn. now apply utf8_unique.
Qed.
Lemma unum_cut_ok : forall k, cut_ok (uenc k) (fun w n => num_bytes k n w) num_enc_new true.
Proof.
  intros. eapply cut_ok_1 with (P := @bytes_eidle _); [|reflexivity|apply unum_rests].
  apply encodes_encuts; [|apply unum_enc]. destruct k; intros f0 s w; apply num_ecuts.
Qed.
Lemma snum_cut_ok : forall k, cut_ok (senc k)
  (fun w z => length w = swidth k /\ twos_complement (swidth k) z (svalue k w)) num_enc_new true.
Proof.
  intros. eapply cut_ok_1 with (P := @bytes_eidle _); [|reflexivity|apply snum_rests].
  apply encodes_encuts; [|apply snum_enc]. destruct k; intros f0 s w; apply num_ecuts.
Qed.

Definition code_cut_ok A (c : codec A) : Prop :=
  wf c -> ereports c -> cut_ok (encoder c) (wire c) (enc_fresh c) (enc_again c).
Definition part_cut_ok A (p : parts A) : Prop :=
  pwf p -> pereports p -> eparts_ok (psem_enc (psem p)) /\
  cut_ok (tuple_of_enc_parts (psem_enc (psem p))) (pwire p) (penc0 (psem p)) (penc_again p).

Lemma term_cut_ok :
  (forall A (c : codec A), code_cut_ok c) /\ (forall A (p : parts A), part_cut_ok p).
Proof.
  apply codec_parts_ind; unfold code_cut_ok, part_cut_ok, encoder, enc_fresh; cbn.
  - intros k _ _. apply unum_cut_ok.
  - intros k _ _. eapply cut_ok_sub; [apply snum_cut_ok|]. auto.
  - intros _ _. eapply cut_ok_1; [apply null_encuts|exact I|apply null_rests].
  - intros n _ _. apply bytes_cut_ok. intros w i (E & _ & L); auto.
  - intros n _ _. apply bytes_cut_ok. intros w i (E & _ & L); auto.
  - intros _ _. apply bytes_cut_ok. intros w i (E & L); auto.
  - intros _ _. apply utf8_cut_ok. auto.
  - intros n _ _. apply utf8_cut_ok. intros w i (E & _ & L); auto.
  - intros b n W _.
    destruct (proj1 term_enc_ok _ (CPad b n) W) as (P & Q & H & K & HA).
    exists P, Q. split; [|split; auto].
    intros w i F. destruct (H w i F) as (f0 & A). exists f0. intros s Ps fuel L.
    destruct (A s Ps fuel L) as (s' & X & Y). exists s'. split; auto.
    eapply ecuts_ext with (E := length_encoder pad_encoder); auto.
    apply elength_ecuts. eapply emits_ext; [..|exact Y]; auto.
  - intros A f g _ [].
  - intros A p IH W R. destruct (IH W R) as [_ H]. exact H.
  - intros A B f g c IH W R. eapply cut_map; [apply (IH W R)|]. intros w t [H _]; exact H.
  - intros A B f g c IH W R. destruct (IH W R) as (P & Q & H & K & HA). exists P, Q; split; [|split; auto].
    + eapply encuts_sub; [apply (try_map_from_encuts g H)|..]; auto.
      intros w t (a & E1 & _ & E2). eauto.
  - intros A f g c IH W [RG R]. destruct (IH W R) as (P & Q & H & K & HA). exists P, Q; split; [|split; auto].
    + apply map_err_encuts; auto.
    + intros Ea. destruct (HA Ea). split; auto. apply map_err_rests; auto.
  - intros A omitted c IH [W Ea] R. specialize (IH W R). rewrite Ea in *.
    eapply cut_ok_sub; [apply cut_optional; eauto|]. intros w [a|] [_ H]; auto.
  - intros A n c IH W R. eapply cut_ok_sub; [exact (IH W R)|]. intros w i [H _]; auto.
  - intros A n c IH W R.
    destruct (proj1 term_enc_ok _ (CLen2 n c) W) as (P & Q & H & K & HA).
    exists P, Q. split; [|split; auto]. apply encodes_encuts; auto.
    intros f0 s w. apply elength_ecuts.
  - intros A n c IH [W L] R. destruct (IH W R) as (P & Q & H & K & HA).
    exists (fun st => P (mx_inner st) /\ mx_consumed st = 0%N /\ mx_max st = n),
           (fun st => Q (mx_inner st) /\ mx_consumed st = 0%N /\ mx_max st = n).
    split; [apply emax_encuts; auto|split; [cbn; auto|]].
    intros Ea. destruct (HA Ea). split; [apply emax_rests; auto|]. intros s (R0 & R1 & R2); auto.
  - intros A c IH [W _] R. exact (IH W R).
  - intros A c IH W R. eapply cut_ok_sub; [exact (IH W R)|]. intros w i [H _]; auto.
  - intros A c IH [W Ea] _.
    assert (HE := proj1 term_enc_ok _ c W). rewrite Ea in HE.
    destruct (enc_ok_again HE) as (P & H1 & H2 & H3).
    eapply cut_ok_1; [apply pre_encuts; eauto|split; cbn; [auto|reflexivity]|apply pre_rests].
  - intros A c IH (W & M & N0 & _ & Ea & _) R. specialize (IH W R). rewrite Ea in *.
    eapply cut_ok_sub; [apply cut_repeat; [eauto|]|].
    + exact (nonempty_wire c N0).
    + auto.
  - intros A n c IH (W & M & N0 & _ & Ea) R. specialize (IH W R). rewrite Ea in *.
    eapply cut_ok_sub; [apply cut_repeat; [eauto|]|].
    + exact (nonempty_wire c N0).
    + intros w i (Ft & Sq & _). split; auto.
  - intros A k size c IH W R. specialize (IH W R).
    eapply cut_map; [apply (cut_pair (unum_cut_ok k) IH)|].
    intros w t (Ft & w0 & w1 & -> & Wc & Sz & Nb). split; auto. exists w0, w1; cbn.
    rewrite <- Sz. auto.
  - intros A k c IH (W & M & N0 & _ & Ea) R. specialize (IH W R). rewrite Ea in *.
    eapply cut_map; [apply (cut_pair (unum_cut_ok k) (cut_repeat IH (nonempty_wire c N0)))|].
    intros w t (Ft & w0 & w1 & -> & Sq & Nb). split; auto. exists w0, w1; cbn. split; auto. split; auto.
    split; auto. unfold fits in Ft. rewrite len_app in Ft. lia.
  - intros A k c IH (W & Ea & _) R. specialize (IH W R). rewrite Ea in *.
    eapply cut_map; [apply (cut_pair (unum_cut_ok k) (cut_optional IH))|].
    intros w t (Ft & w0 & w1 & -> & X). split; auto. exists w0, w1; cbn.
    destruct t; destruct X; auto.
  - intros A B c IH c' IH' (W & W' & M) [R R']. split; [apply ep_snoc_ok, ep_one_ok|].
    eapply cut_ok_sub; [apply (cut_pair (IH W R) (IH' W' R'))|]. auto.
  - intros A B p IH c IH' (W & W' & M) [R R']. destruct (IH W R) as [OK (P0 & Q0 & H0 & K0 & A0)].
    destruct (IH' W' R') as (P1 & Q1 & H1 & K1 & A1).
    split; [now apply ep_snoc_ok|].
    exists (fun s => P0 (fst s) /\ P1 (snd s)), (fun s => Q0 (fst s) /\ Q1 (snd s)).
    split; [|split; [auto|]].
    + eapply encuts_sub; [apply snoc_encuts; eauto|..]; auto.
    + intros E. apply andb_prop in E. destruct E as [Ea Eb]. destruct A0, A1; auto.
      split; [apply snoc_rests; auto|]. intros s [T0 T1]. auto.
Qed.
