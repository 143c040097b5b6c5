(** * Termination of decoders: proofs. *)
From Verif Require Export Live SoundProofs.
Set Implicit Arguments.

Record live_step {S I} (D : Decoder S I) (L : S -> Prop) : Prop := {
  lv_ret : forall s, L s -> returns D s;
  lv_decode : forall s fuel buf e s' n, L s -> dec_decode D fuel s buf e = (s', Ok n) -> L s';
  lv_end : forall s, L s -> snd (dec_finish D s) <> OutOfFuel;
  lv_finish : forall s s' i, L s -> dec_finish D s = (s', Ok i) -> L s'
}.
Arguments lv_ret {S I D L} _ s _ fuel buf e _.
Arguments lv_decode {S I D L} _ {s fuel buf e s' n} _ _.
Arguments lv_end {S I D L} _ {s} _.
Arguments lv_finish {S I D L} _ {s s' i} _ _.
Definition live {S I} (D : Decoder S I) (s : S) : Prop := exists L, live_step D L /\ L s.

Section Live.
Context {S I : Type} (D : Decoder S I).
Lemma live_closed : live_step D (live D).
Proof.
  constructor.
  - intros s (L & H & h). exact (lv_ret H _ h).
  - intros s fuel buf e s' n (L & H & h) E. exists L. split; auto. exact (lv_decode H h E).
  - intros s (L & H & h). exact (lv_end H h).
  - intros s s' i (L & H & h) E. exists L. split; auto. exact (lv_finish H h E).
Qed.
Lemma live_history : forall s ops s' acc items,
  live D s -> history D s ops s' acc items -> live D s'.
Proof.
  intros s ops s' acc items H0 H. induction H; auto.
  - eapply (lv_decode live_closed); eauto.
  - eapply (lv_finish live_closed); eauto.
Qed.

Lemma live_all : (forall s, returns D s) -> (forall s, snd (dec_finish D s) <> OutOfFuel) ->
  forall s, live D s.
Proof. intros A B s. exists (fun _ => True). split; auto. constructor; auto. Qed.

Lemma enough_sub : forall fuel (buf b : list byte), enough fuel buf -> length b <= length buf -> enough fuel b.
Proof. unfold enough; intros; lia. Qed.

Lemma try_live : forall s fuel off buf e, live D s -> enough fuel buf ->
  match try_decode D fuel s off buf e with
  | TGo s' _ => live D s'
  | TRet s' (Ok _) => live D s'
  | TRet _ r => r <> OutOfFuel
  end.
Proof.
  intros s fuel off buf e H F. unfold try_decode. destruct (dec_idle D s); auto.
  unfold slice_from. destruct (off <=? length buf); [|discriminate].
  pose proof (lv_ret live_closed _ H fuel (skipn off buf) e) as R.
  destruct (dec_decode D fuel s (skipn off buf) e) as [s1 r] eqn:E. cbn in R.
  specialize (R ltac:(eapply enough_sub; eauto; rewrite skipn_length; lia)).
  destruct r; auto; try congruence.
  pose proof (lv_decode live_closed H E). now destruct (dec_idle D s1).
Qed.
Lemma try_live' : forall s fuel off buf e, live D s ->
  match try_decode D fuel s off buf e with
  | TGo s' _ => live D s'
  | TRet s' (Ok _) => live D s'
  | TRet _ _ => True
  end.
Proof.
  intros s fuel off buf e H. unfold try_decode. destruct (dec_idle D s); auto.
  unfold slice_from. destruct (off <=? length buf); auto.
  destruct (dec_decode D fuel s (skipn off buf) e) as [s1 r] eqn:E. destruct r; auto.
  pose proof (lv_decode live_closed H E). now destruct (dec_idle D s1).
Qed.
End Live.

Lemma live_map : forall S I T (D : Decoder S I) (D' : Decoder S T) s,
  (forall fuel s buf e s' n, dec_decode D' fuel s buf e = (s', Ok n) -> dec_decode D fuel s buf e = (s', Ok n)) ->
  (forall fuel s buf e s', dec_decode D' fuel s buf e = (s', OutOfFuel) -> dec_decode D fuel s buf e = (s', OutOfFuel)) ->
  (forall s s' t, dec_finish D' s = (s', Ok t) -> exists i, dec_finish D s = (s', Ok i)) ->
  (forall s s', dec_finish D' s = (s', OutOfFuel) -> dec_finish D s = (s', OutOfFuel)) ->
  live D s -> live D' s.
Proof.
  intros S I T D D' s A1 A2 A3 A4 (L & [H1 H2 H3 H4] & h). exists L. split; auto. constructor.
  - intros s0 h0 fuel buf e F E. destruct (dec_decode D' fuel s0 buf e) as [s1 r] eqn:E1. cbn in E. subst r.
    apply A2 in E1. apply (H1 _ h0 fuel buf e F). now rewrite E1.
  - intros. eauto.
  - intros s0 h0 E. destruct (dec_finish D' s0) as [s1 r] eqn:E1. cbn in E. subst r.
    apply A4 in E1. apply (H3 _ h0). now rewrite E1.
  - intros s0 s' i h0 E. destruct (A3 _ _ _ E) as (j & E'). eauto.
Qed.
Lemma map_live : forall S I T (D : Decoder S I) (f : I -> T) s, live D s -> live (map_decoder D f) s.
Proof.
  intros S I T D f s. apply live_map; auto; cbn.
  - intros s0 s' t. destruct (dec_finish D s0) as [s1 [i| | |]]; cbn; try discriminate. intros [= <- <-]. eauto.
  - intros s0 s'. destruct (dec_finish D s0) as [s1 [i| | |]]; cbn; try discriminate. intros [= <-]. auto.
Qed.
Lemma try_map_live : forall S I T (D : Decoder S I) (f : I -> T + ErrorKind) s, live D s -> live (try_map_decoder D f) s.
Proof.
  intros S I T D f s. apply live_map; auto; cbn.
  - intros s0 s' t. destruct (dec_finish D s0) as [s1 [i| | |]]; cbn; try discriminate.
    destruct (f i); try discriminate. intros [= <- <-]. eauto.
  - intros s0 s'. destruct (dec_finish D s0) as [s1 [i| | |]]; cbn; try discriminate.
    + destruct (f i); discriminate.
    + intros [= <-]. auto.
Qed.
Lemma utf8_live : forall S (D : Decoder S (list byte)) s, live D s -> live (utf8_decoder D) s.
Proof.
  intros S D s. apply live_map; auto; cbn.
  - intros s0 s' t. destruct (dec_finish D s0) as [s1 [i| | |]]; cbn; try discriminate.
    destruct (str_from_utf8 i); try discriminate. intros [= <- <-]. eauto.
  - intros s0 s'. destruct (dec_finish D s0) as [s1 [i| | |]]; cbn; try discriminate.
    + destruct (str_from_utf8 i); discriminate.
    + intros [= <-]. auto.
Qed.
Lemma map_err_live : forall S I (D : Decoder S I) f s, live D s -> live (map_err_decoder D f) s.
Proof.
  intros S I D f s. apply live_map; cbn.
  - intros fuel s0 buf e s' n. destruct (dec_decode D fuel s0 buf e) as [s1 [k| | |]]; cbn; congruence.
  - intros fuel s0 buf e s'. destruct (dec_decode D fuel s0 buf e) as [s1 [k| | |]]; cbn; congruence.
  - intros s0 s' t. destruct (dec_finish D s0) as [s1 [k| | |]]; cbn; try congruence. intros [= <- <-]; eauto.
  - intros s0 s'. destruct (dec_finish D s0) as [s1 [k| | |]]; cbn; congruence.
Qed.
Lemma live_sim : forall S I (D D' : Decoder S I) s, dec_sim D D' -> live D s -> live D' s.
Proof.
  intros S I D D' s (E1 & E2 & E3 & E4). apply live_map.
  - intros. now rewrite E1.
  - intros. now rewrite E1.
  - intros s0 s' t E. rewrite <- E2 in E. eauto.
  - intros s0 s' E. now rewrite E2.
Qed.

(** ** Primitives: no loops at all *)
Ltac branches := repeat match goal with |- context [match ?x with _ => _ end] => destruct x; cbn end.
Lemma copy_live : forall B (BX : ByteBox B) s, live (copy_decoder BX) s.
Proof.
  intros B BX. apply live_all.
  - intros s fuel buf e _. cbn. unfold copy_decode. branches; discriminate.
  - intros s. cbn. unfold copy_finish. branches; discriminate.
Qed.
Lemma bytes_live : forall B (BX : ByteBox B) s, live (bytes_decoder BX) s.
Proof.
  intros B BX. apply live_all.
  - intros s fuel buf e _. cbn. unfold bytes_decode. branches; discriminate.
  - intros s. cbn. unfold bytes_finish. branches; discriminate.
Qed.
Lemma rem_live : forall s, live rem_decoder s.
Proof.
  apply live_all.
  - intros s fuel buf e _. cbn. unfold rem_decode. branches; discriminate.
  - intros s. cbn. unfold rem_finish. branches; discriminate.
Qed.
Lemma null_live : forall s, live null_decoder s.
Proof. apply live_all; intros; [intros ? ? ? _|]; cbn; discriminate. Qed.
Lemma pad_live : forall s, live pad_decoder s.
Proof.
  apply live_all.
  - intros s fuel buf e _. cbn. unfold pad_decode. branches; discriminate.
  - intros s. cbn. branches; discriminate.
Qed.
Lemma mono_live : forall I (f : MonoDecode I) s, live (mono_decoder f) s.
Proof.
  intros I f. apply live_all.
  - intros s fuel buf e _. cbn. unfold mono_decode. branches; discriminate.
  - intros s. cbn. branches; discriminate.
Qed.
Lemma num_live : forall T (item : list byte -> T) s, live (num_decoder item) s.
Proof.
  intros T item s. eapply live_map with (D := copy_decoder vec_box); [now auto|now auto|..|apply copy_live]; cbn.
  - intros s0 s' t E. destruct (copy_finish vec_box s0) as [s1 [i| | |]]; cbn in E; try discriminate.
    injection E as <- <-. eauto.
  - intros s0 s' E. destruct (copy_finish vec_box s0) as [s1 [i| | |]]; cbn in E; try discriminate.
    injection E as <-. eauto.
Qed.

(** ** Combinators that pass calls on *)
Lemma length_live : forall S I (D : Decoder S I) s n rem, live D s -> live (length_decoder D) (mkLength s n rem).
Proof.
  intros S I D s n rem H. exists (fun st => live D (ln_inner st)). split; auto. clear. constructor.
  - intros [s ex rm] H fuel buf e F. cbn in H |- *. unfold length_decode; cbn.
    set (limit := N.min (len buf) rm).
    pose proof (lv_ret (live_closed D) _ H fuel (firstn (N.to_nat limit) buf) (eos_with_remaining (Finite (rm - limit)))) as R.
    specialize (R ltac:(eapply enough_sub; eauto; rewrite firstn_length; lia)).
    destruct (dec_decode D fuel s (firstn (N.to_nat limit) buf) _) as [s1 r]. cbn in R.
    destruct (bc_to_u64 _); [destruct (u64_add _ _); [destruct (_ <=? _)%N|]|]; try discriminate;
      (destruct r; [destruct (u64_sub _ _)|..]); cbn; congruence.
  - intros [s ex rm] fuel buf e s' k H. cbn in H |- *. unfold length_decode; cbn.
    set (limit := N.min (len buf) rm).
    destruct (dec_decode D fuel s (firstn (N.to_nat limit) buf) _) as [s1 r] eqn:E1.
    destruct (bc_to_u64 _); [destruct (u64_add _ _); [destruct (_ <=? _)%N|]|]; try discriminate;
      (destruct r; [destruct (u64_sub _ _)|..]); cbn; intros [= <- <-]; exact (lv_decode (live_closed D) H E1).
  - intros [s ex rm] H. cbn in H |- *. destruct (_ =? _)%N; [|discriminate].
    pose proof (lv_end (live_closed D) H). now destruct (dec_finish D s).
  - intros [s ex rm] s' i H. cbn in H |- *. destruct (_ =? _)%N; [|discriminate].
    destruct (dec_finish D s) as [s1 r] eqn:E. intros [= <- ->]. exact (lv_finish (live_closed D) H E).
Qed.
Lemma max_live : forall S I (D : Decoder S I) s c n, live D s -> live (max_decoder D) (mkMax s c n).
Proof.
  intros S I D s c n H. exists (fun st => live D (mx_inner st)). split; auto. clear. constructor.
  - intros [s c mx] H fuel buf e F. cbn in H |- *. unfold max_decode; cbn.
    assert (C : snd (mkMax s c mx, @rcast unit nat (max_check (mkMax s c mx) buf e)) <> OutOfFuel).
    { cbn. unfold max_check. branches; discriminate. }
    destruct (max_check _ buf e); auto. cbn.
    pose proof (lv_ret (live_closed D) _ H fuel buf e F) as R.
    destruct (dec_decode D fuel s buf e) as [s1 [k| | |]]; [destruct (u64_add _ _)|..]; cbn in *; congruence.
  - intros [s c mx] fuel buf e s' k H. cbn in H |- *. unfold max_decode; cbn.
    destruct (max_check _ buf e); try discriminate. cbn.
    destruct (dec_decode D fuel s buf e) as [s1 [m| | |]] eqn:E; [destruct (u64_add _ _)|..]; intros [= <- <-].
    exact (lv_decode (live_closed D) H E).
  - intros [s c mx] H. cbn in H |- *. pose proof (lv_end (live_closed D) H). now destruct (dec_finish D s).
  - intros [s c mx] s' i H. cbn in H |- *. destruct (dec_finish D s) as [s1 r] eqn:E. intros [= <- ->].
    exact (lv_finish (live_closed D) H E).
Qed.
Lemma omit_live : forall S I (D : Decoder S I) s b, live D s -> live (omit_decoder D) (mkOmit s b).
Proof.
  intros S I D s b H. exists (fun st => live D (om_inner st)). split; auto. clear. constructor.
  - intros [s b] H fuel buf e F. cbn in H |- *. destruct b; [discriminate|].
    pose proof (lv_ret (live_closed D) _ H fuel buf e F). now destruct (dec_decode D fuel s buf e).
  - intros [s b] fuel buf e s' k H. cbn in H |- *. destruct b; [now intros [= <- <-]|].
    destruct (dec_decode D fuel s buf e) as [s1 r] eqn:E. intros [= <- ->]. exact (lv_decode (live_closed D) H E).
  - intros [s b] H. cbn in H |- *. destruct b; [discriminate|]. pose proof (lv_end (live_closed D) H).
    destruct (dec_finish D s) as [s1 [i| | |]]; cbn in *; congruence.
  - intros [s b] s' i H. cbn in H |- *. destruct b; [now intros [= <- <-]|].
    destruct (dec_finish D s) as [s1 [j| | |]] eqn:E; cbn; intros [= <- <-]. exact (lv_finish (live_closed D) H E).
Qed.
Lemma peek_live : forall S I (D : Decoder S I) s, live D s -> live (peek_decoder D) (peek_new s).
Proof.
  intros S I D s H. exists (fun st => live D (pk_inner st)). split; auto. clear. constructor.
  - intros [s o] H fuel buf e F. cbn in H |- *. unfold peek_decode; cbn. destruct o; [discriminate|].
    pose proof (lv_ret (live_closed D) _ H fuel buf e F).
    destruct (dec_decode D fuel s buf e) as [s1 [k| | |]] eqn:E; cbn in *; try congruence.
    destruct (dec_idle D s1); try discriminate.
    pose proof (lv_end (live_closed D) (lv_decode (live_closed D) H E)).
    destruct (dec_finish D s1) as [s2 [k2| | |]]; cbn in *; congruence.
  - intros [s o] fuel buf e s' n H. cbn in H |- *. unfold peek_decode; cbn. destruct o; [now intros [= <- <-]|].
    destruct (dec_decode D fuel s buf e) as [s1 [k| | |]] eqn:E; cbn; try discriminate.
    pose proof (lv_decode (live_closed D) H E) as H1.
    destruct (dec_idle D s1); [|now intros [= <- <-]].
    destruct (dec_finish D s1) as [s2 [k2| | |]] eqn:E2; cbn; intros [= <- <-].
    exact (lv_finish (live_closed D) H1 E2).
  - intros [s o] H. cbn. destruct o; discriminate.
  - intros [s o] s' i H. cbn in H |- *. destruct o; [|discriminate]. now intros [= <- <-].
Qed.
Lemma maybe_live : forall S I (D : Decoder S I) s, live D s -> live (maybe_decoder D) (maybe_new s).
Proof.
  intros S I D s H. exists (fun st => live D (my_inner st)). split; auto. clear. constructor.
  - intros [s b] H fuel buf e F. cbn in H |- *. unfold maybe_decode; cbn.
    match goal with |- context [dec_decode D fuel s buf ?x] =>
      pose proof (lv_ret (live_closed D) _ H fuel buf x F);
      destruct (dec_decode D fuel s buf x) as [s1 [size| | |]] eqn:E1 end; cbn in *; try congruence.
    all: branches; congruence.
  - intros [s b] fuel buf e s' n H. cbn in H |- *. unfold maybe_decode; cbn.
    match goal with |- context [dec_decode D fuel s buf ?x] =>
      destruct (dec_decode D fuel s buf x) as [s1 [size| | |]] eqn:E1; try discriminate end.
    intros [= <- <-]. exact (lv_decode (live_closed D) H E1).
  - intros [s b] H. cbn in H |- *. pose proof (lv_end (live_closed D) H). now destruct (dec_finish D s).
  - intros [s b] s' i H. cbn in H |- *. destruct (dec_finish D s) as [s1 r] eqn:E. intros [= <- ->].
    exact (lv_finish (live_closed D) H E).
Qed.
Lemma pair_live : forall S0 S1 I0 I1 (D0 : Decoder S0 I0) (D1 : Decoder S1 I1) s0 s1,
  live D0 s0 -> live D1 s1 -> live (tuple2_decoder D0 D1) (s0, s1).
Proof.
  intros S0 S1 I0 I1 D0 D1 s0 s1 H0 H1. exists (fun st => live D0 (fst st) /\ live D1 (snd st)).
  split; auto. clear. constructor.
  - intros [s0 s1] [H0 H1] fuel buf e F. cbn in H0, H1.
    unfold tuple2_decoder, tuple_of_dec_parts, dec_decode, dec_parts2, dp_snoc, dp_decode, dp_one. cbn [fst snd].
    pose proof (try_live 0 e H0 F) as T0.
    destruct (try_decode D0 fuel s0 0 buf e) as [t0 o0|t0 [o0| | |]]; cbn; try congruence.
    pose proof (try_live o0 e H1 F) as T1.
    destruct (try_decode D1 fuel s1 o0 buf e) as [t1 o1|t1 [o1| | |]]; cbn; congruence.
  - intros [s0 s1] fuel buf e s' n [H0 H1]. cbn in H0, H1.
    unfold tuple2_decoder, tuple_of_dec_parts, dec_decode, dec_parts2, dp_snoc, dp_decode, dp_one. cbn [fst snd].
    pose proof (try_live' fuel 0 buf e H0) as T0.
    destruct (try_decode D0 fuel s0 0 buf e) as [t0 o0|t0 [o0| | |]]; cbn; try discriminate.
    + pose proof (try_live' fuel o0 buf e H1) as T1.
      destruct (try_decode D1 fuel s1 o0 buf e) as [t1 o1|t1 [o1| | |]]; cbn; intros [= <- <-]; auto.
    + intros [= <- <-]; auto.
  - intros [s0 s1] [H0 H1]. cbn in H0, H1 |- *.
    pose proof (lv_end (live_closed D0) H0). destruct (dec_finish D0 s0) as [t0 [j0| | |]]; cbn in *; try congruence.
    pose proof (lv_end (live_closed D1) H1). destruct (dec_finish D1 s1) as [t1 [j1| | |]]; cbn in *; try congruence.
  - intros [s0 s1] s' i [H0 H1]. cbn in H0, H1 |- *.
    destruct (dec_finish D0 s0) as [t0 [j0| | |]] eqn:E0; cbn; try discriminate.
    destruct (dec_finish D1 s1) as [t1 [j1| | |]] eqn:E1; cbn; intros [= <- <-]. cbn. split.
    + exact (lv_finish (live_closed D0) H0 E0).
    + exact (lv_finish (live_closed D1) H1 E1).
Qed.
Lemma and_then_live : forall S0 S1 I0 I1 (D0 : Decoder S0 I0) (D1 : Decoder S1 I1) (f : I0 -> S1) s0,
  live D0 s0 -> (forall i0, live D1 (f i0)) -> live (and_then_decoder D0 D1 f) (and_then_new s0).
Proof.
  intros S0 S1 I0 I1 D0 D1 f s0 H0 H1.
  exists (fun st => live D0 (at_inner0 st) /\ forall s1, at_inner1 st = Some s1 -> live D1 s1).
  split; [|split; [exact H0|discriminate]]. clear H0. constructor.
  - intros [t0 o1] [H0 HS] fuel buf e F. cbn in H0, HS. cbn [dec_decode and_then_decoder].
    unfold and_then_decode, and_then_body; cbn [at_inner0 at_inner1].
    assert (B : forall s1 off, live D1 s1 ->
      match try_decode D1 fuel s1 off buf e with TRet _ r => r <> OutOfFuel | _ => True end).
    { intros s1 off K. pose proof (try_live off e K F).
      destruct (try_decode D1 fuel s1 off buf e) as [|? [| | |]]; auto; discriminate. }
    destruct o1 as [s1|].
    + pose proof (B s1 0 (HS _ eq_refl)). destruct (try_decode D1 fuel s1 0 buf e); cbn; auto; discriminate.
    + pose proof (try_live 0 e H0 F) as T0.
      destruct (try_decode D0 fuel t0 0 buf e) as [u0 o0|u0 [o0| | |]]; cbn; try congruence.
      pose proof (lv_end (live_closed D0) T0) as X.
      destruct (dec_finish D0 u0) as [v0 [i0| | |]] eqn:E0; cbn in X |- *; try congruence.
      pose proof (B (f i0) o0 (H1 i0)). destruct (try_decode D1 fuel (f i0) o0 buf e); cbn; auto; discriminate.
  - intros [t0 o1] fuel buf e s' n [H0 HS]. cbn in H0, HS. cbn [dec_decode and_then_decoder].
    unfold and_then_decode, and_then_body; cbn [at_inner0 at_inner1].
    assert (B : forall s1 off, live D1 s1 ->
      match try_decode D1 fuel s1 off buf e with TGo s' _ => live D1 s' | TRet s' (Ok _) => live D1 s' | _ => True end).
    { intros s1 off K. exact (try_live' fuel off buf e K). }
    destruct o1 as [s1|].
    + pose proof (B s1 0 (HS _ eq_refl)).
      destruct (try_decode D1 fuel s1 0 buf e) as [|? [| | |]]; intros [= <- <-]; cbn; split; auto; now intros ? [= <-].
    + pose proof (try_live' fuel 0 buf e H0) as T0.
      destruct (try_decode D0 fuel t0 0 buf e) as [u0 o0|u0 [o0| | |]]; try discriminate.
      2: { intros [= <- <-]; cbn; split; auto; discriminate. }
      destruct (dec_finish D0 u0) as [v0 [i0| | |]] eqn:E0; try discriminate.
      pose proof (lv_finish (live_closed D0) T0 E0).
      pose proof (B (f i0) o0 (H1 i0)).
      destruct (try_decode D1 fuel (f i0) o0 buf e) as [|? [| | |]]; intros [= <- <-]; cbn; split; auto; now intros ? [= <-].
  - intros [t0 o1] [H0 HS]. cbn in H0, HS |- *. destruct o1 as [s1|]; [|discriminate].
    pose proof (lv_end (live_closed D1) (HS _ eq_refl)). destruct (dec_finish D1 s1) as [u [| | |]]; cbn in *; congruence.
  - intros [t0 o1] s' i [H0 HS]. cbn in H0, HS |- *. destruct o1 as [s1|]; [|discriminate].
    destruct (dec_finish D1 s1) as [u [| | |]] eqn:E; cbn; intros [= <- <-]; cbn; split; auto; discriminate.
Qed.

(** ** The loops *)
Lemma collectn_live : forall S I (D : Decoder S I) s n, live D s -> live (collectn_decoder D) (collectn_new s n).
Proof.
  intros S I D s n H. exists (fun st => live D (cn_inner st)). split; auto. clear. constructor.
  - intros [s rm it] H fuel buf e F. cbn in H |- *. generalize 0. revert s it H.
    induction rm; intros s it H off; cbn [collectn_loop]; [cbn; discriminate|].
    destruct (off <? length buf); [|cbn; destruct (is_reached e); discriminate].
    pose proof (try_live off e H F) as T.
    destruct (try_decode D fuel s off buf e) as [t o|t [o| | |]]; cbn; try congruence.
    pose proof (lv_end (live_closed D) T).
    destruct (dec_finish D t) as [u [i| | |]] eqn:E; cbn in *; try congruence.
    apply IHrm. exact (lv_finish (live_closed D) T E).
  - intros [s rm it] fuel buf e s' k H. cbn in H |- *. generalize 0. revert s it H.
    induction rm; intros s it H off; cbn [collectn_loop]; [cbn; now intros [= <- <-]|].
    destruct (off <? length buf); [|destruct (_ && _); now intros [= <- <-]].
    pose proof (try_live' fuel off buf e H) as T.
    destruct (try_decode D fuel s off buf e) as [t o|t [o| | |]]; cbn; try discriminate; [|now intros [= <- <-]].
    destruct (dec_finish D t) as [u [i| | |]] eqn:E; cbn in *; try discriminate.
    apply IHrm. exact (lv_finish (live_closed D) T E).
  - intros [s rm it] H. cbn. destruct (_ =? _); discriminate.
  - intros [s rm it] s' i H. cbn in H |- *. destruct (_ =? _); [|discriminate]. now intros [= <- <-].
Qed.

Lemma collect_loop_live : forall S I (D : Decoder S I) (F : format I) b fuel buf e n s items off w,
  (forall v i, F v i -> v <> []) -> enough fuel buf ->
  live D s -> sound_from D F true b s w ->
  (length buf - off) + (if w then 0 else 1) < n ->
  snd (collect_loop D n fuel s items off buf e) <> OutOfFuel.
Proof.
  intros S I D F b fuel buf e n. revert n. pose proof (sound_closed D F true b) as CL.
  induction n; intros s items off w NE FU LV H LT; [lia|]. cbn [collect_loop].
  destruct (Nat.ltb_spec off (length buf)); [|discriminate].
  pose proof (try_live off e LV FU) as T. pose proof (try_sound fuel off buf e H) as TS.
  destruct (try_decode D fuel s off buf e) as [t o|t [o| | |]]; cbn; try congruence.
  destruct TS as (LE & _ & LL & K).
  pose proof (lv_end (live_closed D) T) as X.
  destruct (dec_finish D t) as [u [i| | |]] eqn:E; cbn in X |- *; try congruence.
  destruct (sd_finish CL K E) as [Fi Ag]. destruct (Ag eq_refl) as [K2 _].
  apply IHn with (w := []); auto; [exact (lv_finish (live_closed D) T E)|].
  pose proof (NE _ _ Fi) as NE1.
  destruct w as [|x w].
  - cbn [app] in NE1. destruct (Nat.eq_dec o off) as [->|]; [|lia].
    rewrite Nat.sub_diag in NE1. now destruct NE1.
  - lia.
Qed.
Lemma collect_loop_live' : forall S I (D : Decoder S I) fuel buf e n s items off st' k,
  live D s -> collect_loop D n fuel s items off buf e = (st', Ok k) -> live D (cl_inner st').
Proof.
  intros S I D fuel buf e. induction n; intros s items off st' k LV; cbn [collect_loop].
  - destruct (off <? length buf); [discriminate|]. now intros [= <- <-].
  - destruct (off <? length buf); [|now intros [= <- <-]].
    pose proof (try_live' fuel off buf e LV) as T.
    destruct (try_decode D fuel s off buf e) as [t o|t [o| | |]]; cbn; try discriminate; [|now intros [= <- <-]].
    destruct (dec_finish D t) as [u [i| | |]] eqn:E; cbn in *; try discriminate.
    apply IHn. exact (lv_finish (live_closed D) T E).
Qed.
Lemma collect_live : forall S I (D : Decoder S I) (F : format I) b s,
  (forall v i, F v i -> v <> []) ->
  live D s -> sound_from D F true b s [] -> live (collect_decoder D) (collect_new s).
Proof.
  intros S I D F b s NE LV H.
  exists (fun st => live D (cl_inner st) /\ exists w, sound_from D F true b (cl_inner st) w).
  split; [|cbn; eauto]. clear LV H. constructor.
  - intros [s0 it eos] [LV (w & H)] fuel buf e FU. cbn in LV, H |- *. destruct eos; [discriminate|].
    eapply collect_loop_live; eauto. unfold enough in FU. destruct w; lia.
  - intros [s0 it eos] fuel buf e s' k [LV (w & H)]. cbn in LV, H |- *. destruct eos.
    + intros [= <- <-]. cbn; eauto.
    + intros E. split; [eapply collect_loop_live'; eauto|].
      clear LV NE. assert (O : 0 <= length buf) by lia. revert E O. generalize 0 as off. generalize fuel at 1 as n.
      intros n. revert s0 it w H.
      pose proof (sound_closed D F true b) as CL.
      induction n; intros s0 it w H off; cbn [collect_loop].
      * destruct (off <? length buf); [discriminate|]. intros [= <- <-]; cbn; eauto.
      * destruct (off <? length buf); [|intros [= <- <-]; cbn; eauto]. intros E O.
        pose proof (try_sound fuel off buf e H) as TS.
        destruct (try_decode D fuel s0 off buf e) as [t o|t [o| | |]]; try discriminate.
        -- destruct TS as (LE & _ & LL & K).
           destruct (dec_finish D t) as [u [i| | |]] eqn:E1; try discriminate.
           destruct (sd_finish CL K E1) as [Fi Ag]. destruct (Ag eq_refl) as [K2 _].
           eapply IHn; eauto. lia.
        -- destruct TS as (LE & _ & LL & K). injection E as <- <-. cbn; eauto.
  - intros [s0 it eos] _. cbn. destruct eos; discriminate.
  - intros [s0 it eos] s' i [LV (w & H)]. cbn in LV, H |- *. destruct eos; [|discriminate].
    intros [= <- <-]; cbn; eauto.
Qed.

(** ** Terms *)
Lemma term_live :
  (forall A (c : codec A), usable c -> collects_bytes c -> live (decoder c) (dec_fresh c)) /\
  (forall A (p : parts A), pusable p -> pcollects_bytes p ->
     parts_ok (psem_dec (psem p)) /\ live (tuple_of_dec_parts (psem_dec (psem p))) (pdec0 (psem p))).
Proof.
  apply codec_parts_ind; unfold decoder, dec_fresh; cbn; intros.
  - destruct k; apply num_live.
  - destruct k; apply num_live.
  - apply null_live.
  - apply copy_live.
  - apply bytes_live.
  - apply rem_live.
  - apply utf8_live, rem_live.
  - apply utf8_live, copy_live.
  - apply length_live, pad_live.
  - apply mono_live.
  - now apply H.
  - apply map_live; auto.
  - apply try_map_live; auto.
  - apply map_err_live; auto.
  - apply omit_live; auto.
  - apply length_live; auto.
  - apply length_live; auto.
  - apply max_live; auto.
  - apply peek_live. apply H; tauto.
  - apply maybe_live; auto.
  - auto.
  - destruct H0 as [R U], H1 as [NB CB]. destruct (proj1 term_sound _ c U) as [SD _]. rewrite R in SD.
    eapply collect_live; eauto.
  - apply collectn_live. apply H; tauto.
  - apply and_then_live; [destruct k; apply num_live|]. intros; apply length_live; auto.
  - apply and_then_live; [destruct k; apply num_live|]. intros; apply collectn_live. apply H; tauto.
  - apply and_then_live; [destruct k; apply num_live|]. intros; apply omit_live; auto.
  - split; [apply dp_snoc_ok, dp_one_ok|]. apply pair_live; [apply H|apply H0]; tauto.
  - destruct H as [OK L]; try tauto. split; [now apply dp_snoc_ok|].
    eapply live_sim; [apply tuple_snoc_eq; auto|]. apply pair_live; auto. apply H0; tauto.
Qed.
