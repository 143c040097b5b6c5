(** * The combinators preserve the encoding contract. *)
From Verif Require Export EncPrim Comb Tuple.
Set Implicit Arguments.

(** ** map_from, try_map_from, map_err, optional *)
Lemma map_from_encodes : forall S I T (E : Encoder S I) (f : T -> I) (fmt : format I) P Q,
  encodes E fmt P Q -> encodes (map_from_encoder E f) (fun w t => fmt w (f t)) P Q.
Proof.
  intros S I T E f fmt P Q H w t Ft. destruct (H w (f t) Ft) as (f0 & A).
  exists f0. intros s Ps fuel F. destruct (A s Ps fuel F) as (s' & E1 & E2). exists s'; split; auto.
  eapply emits_ext with (E := E); auto.
Qed.
Lemma map_from_rests : forall S I T (E : Encoder S I) (f : T -> I) P,
  rests E P -> rests (map_from_encoder E f) P.
Proof. intros. eapply rests_ext with (E := E); auto. Qed.

Lemma try_map_from_encodes : forall S I T (E : Encoder S I) (f : T -> I + ErrorKind) (fmt : format I) P Q,
  encodes E fmt P Q ->
  encodes (try_map_from_encoder E f) (fun w t => exists i, f t = inl i /\ fmt w i) P Q.
Proof.
  intros S I T E f fmt P Q H w t (i & Fi & Ft). destruct (H w i Ft) as (f0 & A).
  exists f0. intros s Ps fuel F. destruct (A s Ps fuel F) as (s' & E1 & E2). exists s'; split; auto.
  - cbn. rewrite Fi. auto.
  - eapply emits_ext with (E := E); auto.
Qed.
Lemma try_map_from_rests : forall S I T (E : Encoder S I) (f : T -> I + ErrorKind) P,
  rests E P -> rests (try_map_from_encoder E f) P.
Proof. intros. eapply rests_ext with (E := E); auto. Qed.

Lemma optional_rests : forall S I (E : Encoder S I) P, rests E P -> rests (optional_encoder E) P.
Proof. intros. eapply rests_ext with (E := E); auto. Qed.
Lemma optional_encodes : forall S I (E : Encoder S I) (fmt : format I) P,
  rests E P -> encodes E fmt P P ->
  encodes (optional_encoder E)
          (fun w o => match o with Some i => fmt w i | None => w = [] end) P P.
Proof.
  intros S I E fmt P Rs H w [i|] Ft.
  - destruct (H w i Ft) as (f0 & A). exists f0. intros s Ps fuel F. destruct (A s Ps fuel F) as (s' & E1 & E2).
    exists s'; split; auto. eapply emits_ext with (E := E); auto.
  - subst w. exists 0. intros s Ps fuel F. exists s; split; [reflexivity|].
    eapply emits_ext with (E := E); auto. apply rests_emits; auto.
Qed.

Lemma map_err_emits : forall S I (E : Encoder S I) f f0 P s w,
  emits E f0 P s w -> emits (map_err_encoder E f) f0 P s w.
Proof.
  intros S I E f f0 P s w (R & [H1 H2 H3 H4 H5] & r). exists R; split; auto. constructor; auto.
  - intros s0 w0 w' fuel buf e r0 id L NE NR F. cbn in *.
    destruct (H4 _ _ _ _ _ _ r0 id L NE NR F) as (s' & -> & ? & ?). eauto.
  - intros s0 w0 fuel buf e r0 id L F. cbn in *.
    destruct (H5 _ _ _ _ e r0 id L F) as (s' & -> & ? & ?). eauto.
Qed.
Lemma map_err_rests : forall S I (E : Encoder S I) f P,
  rests E P -> rests (map_err_encoder E f) P.
Proof.
  intros S I E f P H s Ps. destruct (H s Ps) as (A & B & C). cbn. repeat split; auto.
  intros fuel buf e F. destruct (C fuel buf e F) as (s' & -> & ?). eauto.
Qed.
Lemma map_err_encodes : forall S I (E : Encoder S I) f (fmt : format I) P Q,
  encodes E fmt P Q -> encodes (map_err_encoder E f) fmt P Q.
Proof.
  intros S I E f fmt P Q H w i Ft. destruct (H w i Ft) as (f0 & A).
  exists f0. intros s Ps fuel F. destruct (A s Ps fuel F) as (s' & E1 & E2). exists s'; split.
  - cbn. rewrite E1; auto.
  - now apply map_err_emits.
Qed.

(** ** Tuples *)
Definition enc_sim {S I} (E E' : Encoder S I) : Prop :=
  (forall fuel s buf e, enc_encode E fuel s buf e = enc_encode E' fuel s buf e) /\
  (forall fuel s i, enc_start E fuel s i = enc_start E' fuel s i) /\
  (forall s q, enc_req E s = Ok q -> enc_req E' s = Ok q) /\
  (forall s, enc_idle E s = enc_idle E' s).

Lemma emits_sim : forall S I (E E' : Encoder S I) f0 P s w,
  enc_sim E E' -> emits E f0 P s w -> emits E' f0 P s w.
Proof.
  intros S I E E' f0 P s w (E1 & _ & E2 & E3) (R & [H1 H2 H3 H4 H5] & r). exists R; split; auto.
  constructor.
  - auto.
  - intros s0 w0 r0 id. rewrite <- E3 in id. eauto.
  - intros s0 w0 r0. rewrite <- E3. destruct (H3 s0 w0 r0) as [Q|[Q ?]]; apply E2 in Q; auto.
  - intros s0 w0 w' fuel buf e r0 id L NE NR F. rewrite <- E3 in id. rewrite <- E1.
    destruct (H4 _ _ _ _ _ _ r0 id L NE NR F) as (s' & ? & ? & ?). exists s'. rewrite <- E3. auto.
  - intros s0 w0 fuel buf e r0 id L F. rewrite <- E3 in id. rewrite <- E1.
    destruct (H5 _ _ _ _ e r0 id L F) as (s' & ? & ? & ?). exists s'. rewrite <- E3. auto.
Qed.
Lemma rests_sim : forall S I (E E' : Encoder S I) P, enc_sim E E' -> rests E P -> rests E' P.
Proof.
  intros S I E E' P (E1 & _ & E2 & E3) H s Ps. destruct (H s Ps) as (A & B & C).
  rewrite <- E3. repeat split; auto. intros. rewrite <- E1. auto.
Qed.
Lemma encodes_sim : forall S I (E E' : Encoder S I) (fmt : format I) P Q,
  enc_sim E E' -> encodes E fmt P Q -> encodes E' fmt P Q.
Proof.
  intros S I E E' fmt P Q Sim H w i Ft. destruct (H w i Ft) as (f0 & A).
  exists f0. intros s Ps fuel F. destruct (A s Ps fuel F) as (s' & X1 & X2). exists s'; split.
  - destruct Sim as (_ & X & _). rewrite <- X. auto.
  - eapply emits_sim; eauto.
Qed.

Record eparts_ok {S I} (P : EncParts S I) : Prop := {
  eo_pidle : forall fuel s off buf e, ep_idle P s = true ->
    ep_encode P fuel s off buf e = (TGo s off, buf);
  eo_pgo : forall fuel s off buf e s' off' buf',
    ep_encode P fuel s off buf e = (TGo s' off', buf') -> ep_idle P s' = true;
  eo_pret : forall fuel s off buf e s' n buf',
    ep_encode P fuel s off buf e = (TRet s' (Ok n), buf') -> ep_idle P s' = false
}.

Lemma try_encode_idle : forall S I (E : Encoder S I) fuel s off buf e,
  enc_idle E s = true -> try_encode E fuel s off buf e = (TGo s off, buf).
Proof. intros; unfold try_encode; now rewrite H. Qed.
Lemma try_encode_go : forall S I (E : Encoder S I) fuel s off buf e s' off' buf',
  try_encode E fuel s off buf e = (TGo s' off', buf') -> enc_idle E s' = true.
Proof.
  intros S I E fuel s off buf e s' off' buf'. unfold try_encode.
  destruct (enc_idle E s) eqn:id; [congruence|].
  destruct (slice_from off buf); [|discriminate].
  destruct (enc_encode E fuel s l e) as [[s1 b1] [n| | |]]; try discriminate.
  destruct (enc_idle E s1) eqn:id1; congruence.
Qed.
Lemma try_encode_ret : forall S I (E : Encoder S I) fuel s off buf e s' n buf',
  try_encode E fuel s off buf e = (TRet s' (Ok n), buf') -> enc_idle E s' = false.
Proof.
  intros S I E fuel s off buf e s' off' buf'. unfold try_encode.
  destruct (enc_idle E s) eqn:id; [congruence|].
  destruct (slice_from off buf); [|discriminate].
  destruct (enc_encode E fuel s l e) as [[s1 b1] [n| | |]]; try discriminate.
  destruct (enc_idle E s1) eqn:id1; congruence.
Qed.

Lemma ep_one_ok : forall S I (E : Encoder S I), eparts_ok (ep_one E).
Proof.
  intros. constructor; cbn.
  - intros. now apply try_encode_idle.
  - intros. eapply try_encode_go; eauto.
  - intros. eapply try_encode_ret; eauto.
Qed.

Lemma ep_snoc_ok : forall S I S' I' (P : EncParts S I) (E : Encoder S' I'),
  eparts_ok P -> eparts_ok (ep_snoc P E).
Proof.
  intros S I S' I' P E [H1 H2 H3]. constructor; cbn.
  - intros fuel [s0 s1] off buf e id. cbn in *. apply andb_prop in id. destruct id as [i0 i1].
    rewrite H1 by auto. rewrite try_encode_idle by auto. reflexivity.
  - intros fuel [s0 s1] off buf e s' off' buf'. cbn.
    destruct (ep_encode P fuel s0 off buf e) as [[a oa|a r] b0] eqn:E0; [|discriminate].
    destruct (try_encode E fuel s1 oa b0 e) as [[b ob|b r] b1] eqn:E1; [|discriminate].
    intros [= <- <- <-]. cbn.
    rewrite (H2 _ _ _ _ _ _ _ _ E0), (try_encode_go _ _ _ _ _ _ E1). auto.
  - intros fuel [s0 s1] off buf e s' n buf'. cbn.
    destruct (ep_encode P fuel s0 off buf e) as [[a oa|a r] b0] eqn:E0.
    + destruct (try_encode E fuel s1 oa b0 e) as [[b ob|b r] b1] eqn:E1; [discriminate|].
      intros [= <- -> <-]. cbn. rewrite (try_encode_ret _ _ _ _ _ _ E1). apply andb_false_r.
    + intros [= <- -> <-]. cbn. rewrite (H3 _ _ _ _ _ _ _ _ E0). reflexivity.
Qed.

(** A tuple with one more component is a pair of the tuple and the component. *)
Lemma etuple_snoc_sim : forall S I S' I' (P : EncParts S I) (E : Encoder S' I'),
  eparts_ok P ->
  enc_sim (tuple2_encoder (tuple_of_enc_parts P) E) (tuple_of_enc_parts (ep_snoc P E)).
Proof.
  intros S I S' I' P E [H1 H2 H3]. repeat split.
  - intros fuel [s0 s1] buf e. cbn. unfold try_encode at 1. cbn.
    destruct (ep_idle P s0) eqn:id.
    + rewrite H1 by auto. destruct (try_encode E fuel s1 0 buf e) as [[] ?]; reflexivity.
    + destruct (ep_encode P fuel s0 0 buf e) as [[a oa|a [n| | |]] b0] eqn:X; auto.
      * rewrite (H2 _ _ _ _ _ _ _ _ X).
        destruct (try_encode E fuel s1 oa b0 e) as [[] ?]; reflexivity.
      * rewrite (H3 _ _ _ _ _ _ _ _ X). reflexivity.
  - intros [s0 s1] q. cbn. destruct (ep_req P (Finite 0) s0) as [q0| | |] eqn:X; cbn; auto.
    assert (A : add_for_encoding (Finite 0) q0 = Ok q0 \/ add_for_encoding (Finite 0) q0 = Panic).
    { destruct q0; cbn; auto. unfold opt_finite, u64_add.
      destruct (0 + n <=? u64_max)%N; auto. }
    destruct A as [A|A]; cbn in A; rewrite A; [auto|discriminate].
Qed.

Section EPair.
  Context {S0 S1 I0 I1 : Type} (E0 : Encoder S0 I0) (E1 : Encoder S1 I1) (f0 : nat)
          (P0 : S0 -> Prop) (P1 : S1 -> Prop).

  Definition epair_R (s : S0 * S1) (w : list byte) : Prop :=
    (len w <= isize_max)%N /\
    exists w0 w1, w = w0 ++ w1 /\ emits E0 f0 P0 (fst s) w0 /\ emits E1 f0 P1 (snd s) w1.

  Lemma epair_emits : forall s0 s1 w0 w1,
    (len (w0 ++ w1) <= isize_max)%N -> emits E0 f0 P0 s0 w0 -> emits E1 f0 P1 s1 w1 ->
    emits (tuple2_encoder E0 E1) f0 (fun s => P0 (fst s) /\ P1 (snd s)) (s0, s1) (w0 ++ w1).
  Proof.
    intros s0 s1 w0 w1 L H0 H1. exists epair_R; split; [|split; eauto 6]. clear.
    constructor.
    - intros s w (L & _); exact L.
    - intros [s0 s1] w (L & w0 & w1 & -> & H0 & H1) id. cbn in *.
      apply andb_prop in id. destruct id as [id0 id1].
      destruct (emits_idle H0 id0) as (-> & ?). destruct (emits_idle H1 id1) as (-> & ?). auto.
    - intros [s0 s1] w (L & w0 & w1 & -> & H0 & H1). cbn in *. rewrite len_app in *.
      pose proof isize_u64.
      destruct (emits_req H0) as [->|[-> id0]]; cbn;
        rewrite ?u64_add_ok by lia; cbn.
      + destruct (emits_req H1) as [->|[-> id1]]; cbn.
        * rewrite u64_add_ok by lia. cbn. left. do 2 f_equal; lia.
        * right; split; auto. rewrite id1. apply andb_false_r.
      + rewrite id0. right; split; auto.
        destruct (emits_req H1) as [->|[-> id1]]; cbn; auto.
    - intros [s0 s1] w w' fuel buf e (L & w0 & w1 & E & H0 & H1) id LW NE NR F.
      cbn in id, H0, H1. rewrite E in L. rewrite len_app in L.
      (* the second component fills what is left of the buffer *)
      assert (G : forall s0' a bb, enc_idle E0 s0' = true -> emits E0 f0 P0 s0' [] ->
        w = w0 ++ a -> w1 = a ++ w' -> length bb = length buf -> firstn (length w0) bb = w0 ->
        exists s', (let '(t, buf0) := try_encode E1 fuel s1 (length w0) bb e in
             match t with
             | TGo s2 off1 => (s0', s2, buf0, Ok off1)
             | TRet s2 r => (s0', s2, buf0, r)
             end) = (s', w, Ok (length buf)) /\
          enc_idle E0 (fst s') && enc_idle E1 (snd s') = false /\ epair_R s' w').
      { intros s0' a bb id0 H0' -> -> LB FB. rewrite app_length in LW.
        destruct (enc_idle E1 s1) eqn:id1.
        { destruct (emits_idle H1 id1) as (N & _). destruct a, w'; cbn in N; congruence. }
        assert (SL : slice_from (length w0) bb = Some (skipn (length w0) bb)).
        { unfold slice_from. replace (length w0 <=? length bb) with true by lia. auto. }
        assert (LA : length a = length (skipn (length w0) bb)) by (rewrite skipn_length; lia).
        assert (F1 : f0 + length (skipn (length w0) bb) < fuel) by (rewrite skipn_length; lia).
        destruct (emits_more H1 id1 LA NE NR F1) as (s1' & X1 & id1' & H1').
        unfold try_encode. rewrite id1, SL, X1, id1', FB.
        eexists; split; [do 2 f_equal; rewrite skipn_length; lia|]. cbn.
        rewrite id1', andb_false_r. split; auto. split; [rewrite len_app in L; lia|].
        cbn. exists [], w'. auto. }
      cbn. unfold try_encode at 1.
      destruct (enc_idle E0 s0) eqn:id0.
      + destruct (emits_idle H0 id0) as (-> & _). cbn in E.
        destruct (G s0 w buf id0 H0 eq_refl (eq_sym E) eq_refl eq_refl) as (s' & X & Y & Z).
        exists s'. split; auto. cbn in X. rewrite <- X.
        destruct (try_encode E1 fuel s1 0 buf e) as [[] ?]; reflexivity.
      + rewrite slice_from_0.
        destruct (app_cases _ _ _ _ (eq_sym E)) as [(w0' & -> & -> & NE0)|(b1 & -> & ->)].
        * destruct (emits_more H0 id0 LW NE0 NR F) as (s0' & X0 & id0' & H0').
          rewrite X0, id0'. exists (s0', s1). cbn. rewrite id0'. repeat split; auto.
          { cbn. rewrite len_app in *. lia. }
          exists w0', w1; auto.
        * rewrite app_length in LW.
          destruct (emits_last e H0 id0 (buf := buf) ltac:(lia) F) as (s0' & X0 & id0' & H0').
          rewrite X0, id0'. cbn [Nat.add firstn app].
          destruct (G s0' b1 (w0 ++ skipn (length w0) buf) id0' H0' eq_refl eq_refl) as (s' & X & Y & Z).
          { rewrite app_length, skipn_length; lia. }
          { apply firstn_app_exact. }
          exists s'; split; auto. rewrite <- X.
          destruct (try_encode E1 fuel s1 (length w0) _ e) as [[] ?]; reflexivity.
    - intros [s0 s1] w fuel buf e (L & w0 & w1 & -> & H0 & H1) id LW F.
      cbn in id, H0, H1. rewrite app_length in LW.
      assert (G : forall s0' , enc_idle E0 s0' = true -> emits E0 f0 P0 s0' [] ->
        exists s', (let '(t, buf0) := try_encode E1 fuel s1 (length w0) (w0 ++ skipn (length w0) buf) e in
             match t with
             | TGo s2 off1 => (s0', s2, buf0, Ok off1)
             | TRet s2 r => (s0', s2, buf0, r)
             end) = (s', (w0 ++ w1) ++ skipn (length (w0 ++ w1)) buf, Ok (length (w0 ++ w1))) /\
          enc_idle E0 (fst s') && enc_idle E1 (snd s') = true /\ epair_R s' []).
      { intros s0' id0 H0'. unfold try_encode.
        destruct (enc_idle E1 s1) eqn:id1.
        { destruct (emits_idle H1 id1) as (-> & _). rewrite app_nil_r.
          eexists; split; [reflexivity|]. cbn. rewrite id0, id1. split; auto.
          split; [cbn; lia|]. exists [], []; auto. }
        rewrite slice_from_app.
        assert (LA : length w1 <= length (skipn (length w0) buf)) by (rewrite skipn_length; lia).
        assert (F1 : f0 + length (skipn (length w0) buf) < fuel) by (rewrite skipn_length; lia).
        destruct (emits_last e H1 id1 LA F1) as (s1' & X1 & id1' & H1').
        rewrite X1, id1', firstn_app_exact.
        eexists; split.
        { rewrite app_length, skipn_skipn, <- app_assoc. do 2 f_equal.
          rewrite (Nat.add_comm (length w1)). reflexivity. }
        cbn. rewrite id0, id1'. split; auto. split; [cbn; lia|]. exists [], []; auto. }
      cbn. unfold try_encode at 1.
      destruct (enc_idle E0 s0) eqn:id0.
      + destruct (emits_idle H0 id0) as (-> & _).
        destruct (G s0 id0 H0) as (s' & X & Y & Z).
        exists s'. split; auto. cbn in X |- *. rewrite <- X.
        destruct (try_encode E1 fuel s1 0 buf e) as [[] ?]; reflexivity.
      + rewrite slice_from_0.
        destruct (emits_last e H0 id0 (buf := buf) ltac:(lia) F) as (s0' & X0 & id0' & H0').
        rewrite X0, id0'. cbn [Nat.add firstn app].
        destruct (G s0' id0' H0') as (s' & X & Y & Z).
        exists s'; split; auto. rewrite <- X.
        destruct (try_encode E1 fuel s1 (length w0) _ e) as [[] ?]; reflexivity.
  Qed.
End EPair.

Definition pair_fmt {I0 I1} (fmt0 : format I0) (fmt1 : format I1) : format (I0 * I1) :=
  fun w i => (len w <= isize_max)%N /\
             exists w0 w1, w = w0 ++ w1 /\ fmt0 w0 (fst i) /\ fmt1 w1 (snd i).

Lemma pair_encodes : forall S0 S1 I0 I1 (E0 : Encoder S0 I0) (E1 : Encoder S1 I1)
    (fmt0 : format I0) (fmt1 : format I1) P0 P1 Q0 Q1,
  encodes E0 fmt0 P0 Q0 -> encodes E1 fmt1 P1 Q1 ->
  encodes (tuple2_encoder E0 E1) (pair_fmt fmt0 fmt1)
          (fun s => P0 (fst s) /\ P1 (snd s)) (fun s => Q0 (fst s) /\ Q1 (snd s)).
Proof.
  intros S0 S1 I0 I1 E0 E1 fmt0 fmt1 P0 P1 Q0 Q1 H0 H1 w [i0 i1] (L & w0 & w1 & -> & F0 & F1).
  destruct (H0 w0 i0 F0) as (f0 & A0). destruct (H1 w1 i1 F1) as (f1 & A1).
  exists (f0 + f1). intros [s0 s1] [p0 p1] fuel F.
  destruct (A0 s0 p0 fuel ltac:(lia)) as (s0' & X0 & Y0).
  destruct (A1 s1 p1 fuel ltac:(lia)) as (s1' & X1 & Y1).
  exists (s0', s1'). split.
  - cbn in *. rewrite X0, X1. reflexivity.
  - apply epair_emits; auto; (eapply emits_fuel; [|eassumption]; lia).
Qed.
Lemma pair_rests : forall S0 S1 I0 I1 (E0 : Encoder S0 I0) (E1 : Encoder S1 I1) P0 P1,
  rests E0 P0 -> rests E1 P1 ->
  rests (tuple2_encoder E0 E1) (fun s => P0 (fst s) /\ P1 (snd s)).
Proof.
  intros S0 S1 I0 I1 E0 E1 P0 P1 R0 R1 [s0 s1] [p0 p1]. cbn in p0, p1.
  destruct (R0 s0 p0) as (A0 & B0 & _). destruct (R1 s1 p1) as (A1 & B1 & _). cbn.
  rewrite A0, A1, B0, B1. repeat split; auto.
  intros fuel buf e _. unfold try_encode. rewrite A0, A1. eauto.
Qed.
Lemma snoc_encodes : forall S I S' I' (PP : EncParts S I) (E : Encoder S' I')
    (fmt0 : format I) (fmt1 : format I') P0 P1 Q0 Q1,
  eparts_ok PP ->
  encodes (tuple_of_enc_parts PP) fmt0 P0 Q0 -> encodes E fmt1 P1 Q1 ->
  encodes (tuple_of_enc_parts (ep_snoc PP E)) (pair_fmt fmt0 fmt1)
          (fun s => P0 (fst s) /\ P1 (snd s)) (fun s => Q0 (fst s) /\ Q1 (snd s)).
Proof.
  intros. eapply encodes_sim; [apply etuple_snoc_sim; auto|]. now apply pair_encodes.
Qed.
Lemma snoc_rests : forall S I S' I' (PP : EncParts S I) (E : Encoder S' I') P0 P1,
  eparts_ok PP -> rests (tuple_of_enc_parts PP) P0 -> rests E P1 ->
  rests (tuple_of_enc_parts (ep_snoc PP E)) (fun s => P0 (fst s) /\ P1 (snd s)).
Proof.
  intros. eapply rests_sim; [apply etuple_snoc_sim; auto|]. now apply pair_rests.
Qed.

(** ** length *)
Definition elength_R S I (E : Encoder S I) f0 P (n : N) (st : Length S) (w : list byte) : Prop :=
  emits E f0 P (ln_inner st) w /\ ln_remaining st = len w /\
  ln_expected st = n /\ (w = [] -> enc_idle E (ln_inner st) = true).
Lemma elength_step : forall S I (E : Encoder S I) f0 P n,
  estep_ok (length_encoder E) f0
    (fun st => P (ln_inner st) /\ ln_remaining st = 0%N /\ ln_expected st = n) (elength_R E f0 P n).
Proof.
  intros S I E f0 P n. unfold elength_R.
  constructor.
  - intros s w (H & _). exact (emits_len H).
  - intros [s x r] w (H & R & Ex & X) id. cbn in *. subst r.
    assert (w = []) as -> by (apply len_0; lia). split; auto.
    destruct (emits_idle H (X eq_refl)) as (_ & Ps). auto.
  - intros [s x r] w (H & R & Ex & X). cbn in *. subst r; auto.
  - intros [s x r] w w' fuel buf e (H & R & Ex & X) id LW NE NR F.
    cbn in H, R, Ex, X, id. change (enc_encode (length_encoder E)) with (length_encode E). unfold length_encode.
    cbn [ln_inner ln_remaining ln_expected]. subst r.
    pose proof (length_nonnil NE).
    assert (LL : len (w ++ w') = (len buf + len w')%N) by (rewrite len_app; unfold len; lia).
    assert (LN : (0 < len w')%N) by (unfold len; lia).
    replace (len buf <? len (w ++ w'))%N with true by lia.
    rewrite NR. cbn [andb]. rewrite firstn_all, skipn_all.
    destruct (enc_idle E s) eqn:id1.
    { destruct (emits_idle H id1) as (N & _). destruct w, w'; cbn in N; congruence. }
    destruct (emits_more H id1 LW NE NR (fuel := fuel) ltac:(lia)) as (s' & X1 & id' & H').
    rewrite X1.
    rewrite u64_sub_ok by (unfold len in *; lia).
    rewrite id'. cbn [andb].
    eexists; split; [now rewrite app_nil_r|]. cbn. rewrite LL. split; [unfold len in *; lia|].
    repeat split; auto; try congruence; unfold len; lia.
  - intros [s x r] w fuel buf e (H & R & Ex & X) id LW F.
    cbn in H, R, Ex, X, id. change (enc_encode (length_encoder E)) with (length_encode E). unfold length_encode.
    cbn [ln_inner ln_remaining ln_expected]. subst r.
    replace (len buf <? len w)%N with false by (unfold len; lia).
    cbn [andb]. rewrite len_length.
    assert (NE : w <> []) by (intros ->; discriminate).
    destruct (enc_idle E s) eqn:id1.
    { destruct (emits_idle H id1) as (N & _). congruence. }
    assert (LF : length w <= length (firstn (length w) buf)) by (rewrite firstn_length; lia).
    destruct (emits_last (eos_new true) H id1 LF (fuel := fuel)) as (s' & X1 & id' & H').
    { rewrite firstn_length; lia. }
    rewrite X1.
    rewrite u64_sub_ok by (unfold len in *; lia).
    rewrite id'.
    replace (len w - N.of_nat (length w))%N with 0%N by (unfold len; lia).
    cbn [andb negb N.eqb].
    eexists; split.
    { rewrite (skipn_all2 (firstn _ _)) by (rewrite firstn_length; lia).
      rewrite app_nil_r. reflexivity. }
    cbn. repeat split; auto.
Qed.
Lemma elength_emits : forall S I (E : Encoder S I) f0 P s w n,
  rests E P ->
  emits E f0 P s w -> (w = [] -> enc_idle E s = true) ->
  emits (length_encoder E) f0
        (fun st => P (ln_inner st) /\ ln_remaining st = 0%N /\ ln_expected st = n)
        (mkLength s n (len w)) w.
Proof.
  intros S I E f0 P s w n RS H X. exists (elength_R E f0 P n). split; [apply elength_step|].
  repeat split; auto.
Qed.
Lemma elength_rests : forall S I (E : Encoder S I) P n,
  rests E P ->
  rests (length_encoder E) (fun st => P (ln_inner st) /\ ln_remaining st = 0%N /\ ln_expected st = n).
Proof.
  intros S I E P n RS [s x r] (Ps & Hr & Hx). cbn in *; subst.
  destruct (RS s Ps) as (A & B & C). repeat split; auto.
  intros fuel buf e F. unfold length_encode. cbn [ln_inner ln_remaining ln_expected].
  replace (len buf <? 0)%N with false by lia. cbn [andb].
  destruct (C fuel (firstn (N.to_nat 0) buf) (eos_new true) F) as (s' & -> & Ps').
  rewrite u64_sub_ok by lia. cbn. rewrite andb_false_r. eexists; split; [reflexivity|]. auto.
Qed.
(** A fresh [length(n)] encoder takes one item of exactly [n] bytes. *)
Lemma elength_encodes : forall S I (E : Encoder S I) (fmt : format I) P n,
  rests E P -> (0 < n)%N -> encodes E fmt P P ->
  encodes (length_encoder E) (fun w i => fmt w i /\ len w = n)
          (fun st => P (ln_inner st) /\ ln_remaining st = n /\ ln_expected st = n)
          (fun st => P (ln_inner st) /\ ln_remaining st = 0%N /\ ln_expected st = n).
Proof.
  intros S I E fmt P n RS N0 H w i [Ft L]. destruct (H w i Ft) as (f0 & A).
  exists f0. intros [s x r] (Ps & Hr & Hx) fuel F. cbn in *; subst r x.
  destruct (A s Ps fuel F) as (s' & X1 & X2). exists (mkLength s' n n). split.
  - cbn. rewrite N.eqb_refl, X1. reflexivity.
  - rewrite <- L at 2. apply elength_emits; auto. intros ->. cbn in L; lia.
Qed.

(** ** max_bytes *)
Definition emax_R S I (E : Encoder S I) f0 P (mx tot : N) (st : MaxBytes S) (w : list byte) : Prop :=
  emits E f0 P (mx_inner st) w /\
  (enc_idle E (mx_inner st) = false -> mx_consumed st + len w = tot)%N /\
  mx_max st = mx /\ (enc_idle E (mx_inner st) = true -> mx_consumed st = 0%N).
Lemma emax_step : forall S I (E : Encoder S I) f0 P mx tot, (tot <= mx <= u64_max)%N ->
  estep_ok (max_encoder E) f0
    (fun st => P (mx_inner st) /\ mx_consumed st = 0%N /\ mx_max st = mx) (emax_R E f0 P mx tot).
Proof.
  intros S I E f0 P mx tot MX. unfold emax_R.
  constructor.
  - intros s w (H & _). exact (emits_len H).
  - intros [s c x] w (H & R & Ex & X) id. cbn in *.
    destruct (emits_idle H id) as (-> & Ps). auto.
  - intros [s c x] w (H & R & Ex & X). cbn in *. exact (emits_req H).
  - intros [s c x] w w' fuel buf e (H & R & Ex & X) id LW NE NR F. cbn in *. subst x.
    destruct (emits_more H id LW NE NR F) as (s' & X1 & id' & H').
    unfold max_encode; cbn. rewrite X1, id'. rewrite len_app in R.
    rewrite u64_add_ok by (unfold len in *; lia).
    replace (_ <=? _)%N with true by (unfold len in *; lia).
    eexists; split; [reflexivity|]. cbn. repeat split; auto; [unfold len in *; lia|congruence].
  - intros [s c x] w fuel buf e (H & R & Ex & X) id LW F. cbn in *. subst x.
    destruct (emits_last e H id LW F) as (s' & X1 & id' & H').
    unfold max_encode; cbn. rewrite X1, id'.
    rewrite u64_add_ok by (unfold len in *; lia).
    replace (_ <=? _)%N with true by (unfold len in *; lia).
    eexists; split; [reflexivity|]. cbn. repeat split; auto; lia.
Qed.
Lemma emax_emits : forall S I (E : Encoder S I) f0 P s w mx,
  (len w <= mx <= u64_max)%N ->
  emits E f0 P s w ->
  emits (max_encoder E) f0
        (fun st => P (mx_inner st) /\ mx_consumed st = 0%N /\ mx_max st = mx) (mkMax s 0 mx) w.
Proof.
  intros S I E f0 P s w mx LM H. exists (emax_R E f0 P mx (len w)). split; [apply emax_step; lia|].
  repeat split; auto; cbn; lia.
Qed.
Lemma emax_rests : forall S I (E : Encoder S I) P mx,
  rests E P ->
  rests (max_encoder E) (fun st => P (mx_inner st) /\ mx_consumed st = 0%N /\ mx_max st = mx).
Proof.
  intros S I E P mx RS [s c x] (Ps & Hr & Hx). cbn in *; subst.
  destruct (RS s Ps) as (A & B & C). repeat split; auto.
  intros fuel buf e F. unfold max_encode. cbn [mx_inner mx_consumed mx_max].
  destruct (C fuel buf e F) as (s' & -> & Ps').
  rewrite u64_add_ok by (cbn; unfold u64_max; lia). cbn [N.add N.of_nat].
  replace (0 <=? mx)%N with true by lia. destruct (RS s' Ps') as (-> & _).
  eexists; split; [reflexivity|]. auto.
Qed.
Lemma emax_encodes : forall S I (E : Encoder S I) (fmt : format I) P Q mx,
  (mx <= u64_max)%N -> encodes E fmt P Q ->
  encodes (max_encoder E) (fun w i => fmt w i /\ (len w <= mx)%N)
          (fun st => P (mx_inner st) /\ mx_consumed st = 0%N /\ mx_max st = mx)
          (fun st => Q (mx_inner st) /\ mx_consumed st = 0%N /\ mx_max st = mx).
Proof.
  intros S I E fmt P Q mx MX H w i [Ft L]. destruct (H w i Ft) as (f0 & A).
  exists f0. intros [s c x] (Ps & Hc & Hx) fuel F. cbn in *; subst c x.
  destruct (A s Ps fuel F) as (s' & X1 & X2). exists (mkMax s' 0 mx). split.
  - cbn. rewrite X1. reflexivity.
  - apply emax_emits; auto.
Qed.
