(** * Proofs for C73. *)
From Coq Require Import Lia ZifyBool ZifyNat ZifyN.
From Verif Require Export Eager ReturnsProofs.
Set Implicit Arguments.

Record fills {S I} (E : Encoder S I) (p l : bool) (L : S -> Prop) : Prop := {
  fi_tidy : tidy E;
  fi_encode : forall fuel s buf e s' buf' r, L s -> enc_encode E fuel s buf e = (s', buf', r) -> L s';
  fi_start : forall fuel s i s' r, L s -> enc_start E fuel s i = (s', r) -> L s';
  fi_all : forall fuel s buf e s' buf' n, L s -> enc_encode E fuel s buf e = (s', buf', Ok n) ->
    enc_idle E s' = false -> n = length buf;
  fi_loud : forall fuel s buf e s' buf' n, l = true -> L s -> is_reached e = true ->
    enc_encode E fuel s buf e = (s', buf', Ok n) -> enc_idle E s' = true;
  fi_pos : forall fuel s buf e s' buf' n, p = true -> L s -> enc_idle E s = false ->
    enc_encode E fuel s buf e = (s', buf', Ok n) -> (buf <> [] -> n <> 0) /\ (enc_idle E s' = true -> n <> 0)
}.
Definition filling_ok {S I} (E : Encoder S I) (p l : bool) (Init : S -> Prop) : Prop :=
  exists L, fills E p l L /\ forall s, Init s -> L s.

Lemma fills_sub : forall S I J (E : Encoder S I) (E' : Encoder S J) p l L,
  (forall fuel s buf e, enc_encode E' fuel s buf e = enc_encode E fuel s buf e) ->
  (forall fuel s j s' r, enc_start E' fuel s j = (s', r) -> s' = s \/ exists i r', enc_start E fuel s i = (s', r')) ->
  (forall s, enc_idle E' s = enc_idle E s) -> fills E p l L -> fills E' p l L.
Proof.
  intros S I J E E' p l L A B C [H1 H2 H3 H4 H5 H6]. split.
  - eapply tidy_sub; eauto.
  - intros. rewrite A in *. eauto.
  - intros fuel s i s' r Ls X. destruct (B _ _ _ _ _ X) as [->|(i' & r' & Y)]; eauto.
  - intros fuel s buf e s' buf' n. rewrite A, C. eauto.
  - intros fuel s buf e s' buf' n. rewrite A, C. eauto.
  - intros fuel s buf e s' buf' n. rewrite A, !C. eauto.
Qed.
Lemma filling_sub : forall S I J (E : Encoder S I) (E' : Encoder S J) p l L,
  (forall fuel s buf e, enc_encode E' fuel s buf e = enc_encode E fuel s buf e) ->
  (forall fuel s j s' r, enc_start E' fuel s j = (s', r) -> s' = s \/ exists i r', enc_start E fuel s i = (s', r')) ->
  (forall s, enc_idle E' s = enc_idle E s) -> filling_ok E p l L -> filling_ok E' p l L.
Proof. intros S I J E E' p l Init A B C (L & P & H). exists L. split; [eapply fills_sub; eauto|auto]. Qed.

Lemma bytes_all : forall B (BX : ByteBox B) s buf e s' buf' n, bytes_encode BX s buf e = (s', buf', Ok n) ->
  (bytes_enc_idle s' = false -> n = length buf) /\ (is_reached e = true -> bytes_enc_idle s' = true).
Proof.
  intros B BX [[b|] o] buf e s' buf' n; unfold bytes_encode; cbn.
  - unfold usize_sub. destruct (Nat.leb_spec o (length (bx_ref BX b))); [|discriminate].
    set (k := Nat.min (length buf) (length (bx_ref BX b) - o)).
    destruct (Nat.eqb_spec (o + k) (length (bx_ref BX b))); [|destruct (is_reached e); [discriminate|]]; intros Z;
      injection Z as <- <- <-; cbn; (split; [|auto]); try discriminate. lia.
  - intros [= <- <- <-]. cbn. split; [discriminate|auto].
Qed.
Lemma bytes_fills : forall B (BX : ByteBox B), fills (bytes_encoder BX) false true (fun _ => True).
Proof.
  intros B BX. split; cbv beta; auto; try (intros; discriminate).
  - intros fuel s buf e s' buf' r X. exact (bytes_tidy _ _ _ _ X).
  - intros fuel s buf e s' buf' n _ X. apply (bytes_all _ _ _ _ X).
  - intros fuel s buf e s' buf' n _ _ R X. now apply (bytes_all _ _ _ _ X).
Qed.
Lemma null_fills : fills null_encoder true true (fun _ => True).
Proof.
  split; cbv beta; auto; try (intros; discriminate).
  intros fuel s buf e s' buf' r [= <- <- <-]. split; auto. intros n [= <-]. lia.
Qed.
Lemma pad_fills : fills pad_encoder false true (fun _ => True).
Proof.
  split; cbv beta; auto; try (intros; discriminate).
  - intros fuel s buf e s' buf' r. cbn. unfold pad_encode. destruct s; intros [= <- <- <-].
    + rewrite map_length. split; auto. intros n [= <-]. lia.
    + split; auto. intros n [= <-]. lia.
  - intros fuel s buf e s' buf' n _. cbn. unfold pad_encode. destruct s; intros [= <- <- <-]; auto. discriminate.
  - intros fuel s buf e s' buf' n _ _ R. cbn. unfold pad_encode. rewrite R. destruct s; intros [= <- <- <-]; auto.
Qed.
Lemma num_fills : forall T (item : T -> list byte + ErrorKind), (forall t b, item t = inl b -> b <> []) ->
  fills (num_encoder item) true true (fun s => match be_bytes s with Some b => be_off s < length b | None => True end).
Proof.
  intros T item NE.
  assert (G : forall s buf e s' buf' r, match be_bytes s with Some b => be_off s < length b | None => True end ->
    bytes_encode vec_box s buf e = (s', buf', r) ->
    match be_bytes s' with Some b => be_off s' < length b | None => True end /\
    (bytes_enc_idle s = false -> forall n, r = Ok n -> (buf <> [] -> n <> 0) /\ (bytes_enc_idle s' = true -> n <> 0))).
  { intros [[b|] o] buf e s' buf' r; unfold bytes_encode; cbn.
    - intros LT. unfold usize_sub. destruct (Nat.leb_spec o (length b)); [|lia].
      set (k := Nat.min (length buf) (length b - o)).
      assert (B : buf <> [] -> length buf <> 0) by (destruct buf; cbn; congruence).
      destruct (Nat.eqb_spec (o + k) (length b)); [|destruct (is_reached e)]; intros Z; injection Z as <- <- <-; cbn;
        (split; [lia || auto|]); intros _ n1 Q; try discriminate; injection Q as <-; (split; [intros NB; specialize (B NB); lia|]);
        intros; try discriminate; lia.
    - intros _ [= <- <- <-]. cbn. split; [auto|discriminate]. }
  split; cbv beta.
  - intros fuel s buf e s' buf' r X. exact (bytes_tidy _ _ _ _ X).
  - intros fuel s buf e s' buf' r Ls X. cbn in X. now apply (G _ _ _ _ _ _ Ls X).
  - intros fuel [[b|] o] i s' r Ls; cbn in *; (destruct (item i) as [c|k] eqn:IT; [unfold bytes_start; cbn|]); intros [= <- <-]; auto.
    cbn. apply NE in IT. destruct c; cbn; [congruence|lia].
  - intros fuel s buf e s' buf' n _ X. apply (bytes_all _ _ _ _ X).
  - intros fuel s buf e s' buf' n _ _ R X. now apply (bytes_all _ _ _ _ X).
  - intros fuel s buf e s' buf' n _ Ls id X. cbn in X. now apply (G _ _ _ _ _ _ Ls X).
Qed.
Lemma mono_fills : forall I (f : MonoEncode I), fills (mono_encoder f) false false
  (fun s => me_item s <> None -> bytes_enc_idle (me_buf s) = true).
Proof.
  intros I f. split; cbv beta; try (intros; discriminate).
  - apply mono_tidy.
  - intros fuel [[i|] b] buf e s' buf' r Ls; cbn; unfold mono_encode; cbn.
    + destruct (f i) as [chunks err]. destruct err; [|destruct (wc_b _); [|destruct (bytes_start b _) as [b' [u| | |]]]]; intros [= <- <- <-]; cbn; congruence.
    + destruct (bytes_encode vec_box b buf e) as [[b' buf1] r1]. intros [= <- <- <-]. cbn. congruence.
  - intros fuel [[i|] b] j s' r Ls; cbn; unfold mono_enc_idle; cbn; [intros [= <- <-]; auto|].
    destruct (bytes_enc_idle b) eqn:id; intros [= <- <-]; cbn; auto; congruence.
  - intros fuel [[i|] b] buf e s' buf' n Ls; cbn; unfold mono_encode, mono_enc_idle; cbn.
    + cbn in Ls. destruct (f i) as [chunks err]. destruct err; [discriminate|]. destruct (wc_b _).
      * intros [= <- <- <-]. cbn. rewrite Ls; discriminate.
      * destruct (bytes_start b _) as [b' [u| | |]]; try discriminate. intros [= <- <- <-]. auto.
    + destruct (bytes_encode vec_box b buf e) as [[b' buf1] r1] eqn:X. intros [= <- <- ->]. cbn. apply (bytes_all _ _ _ _ X).
Qed.
Lemma pre_fills : forall S I (E : Encoder S I), fills (pre_encoder E) false true (fun _ => True).
Proof.
  intros S I E. split; cbv beta; auto; try (intros; discriminate).
  - intros fuel [s b] buf e s' buf' r. cbn. destruct (bytes_encode vec_box b buf e) as [[b1 buf1] r1] eqn:X.
    intros [= <- <- <-]. eapply bytes_tidy; eauto.
  - intros fuel [s b] buf e s' buf' n _. cbn. destruct (bytes_encode vec_box b buf e) as [[b1 buf1] r1] eqn:X.
    intros [= <- <- ->]. cbn. apply (bytes_all _ _ _ _ X).
  - intros fuel [s b] buf e s' buf' n _ _ R. cbn. destruct (bytes_encode vec_box b buf e) as [[b1 buf1] r1] eqn:X.
    intros [= <- <- ->]. cbn. now apply (bytes_all _ _ _ _ X).
Qed.
Section One.
Context {S I : Type} (E : Encoder S I) (p l : bool) (L : S -> Prop) (H : fills E p l L).
Lemma map_err_fills : forall g, fills (map_err_encoder E g) p l L.
Proof.
  assert (G : forall g fuel s buf e s' buf' n, enc_encode (map_err_encoder E g) fuel s buf e = (s', buf', Ok n) ->
    enc_encode E fuel s buf e = (s', buf', Ok n)).
  { intros g fuel s buf e s' buf' n. cbn. destruct (enc_encode E fuel s buf e) as [[s1 b1] [k| | |]]; cbn; try discriminate. auto. }
  intros g. split.
  - apply map_err_tidy, H.
  - intros fuel s buf e s' buf' r Ls. cbn. destruct (enc_encode E fuel s buf e) as [[s1 b1] r1] eqn:X. intros [= <- <- <-].
    eapply (fi_encode H); eauto.
  - intros fuel s i s' r Ls. cbn. destruct (enc_start E fuel s i) as [s1 r1] eqn:X. intros [= <- <-]. eapply (fi_start H); eauto.
  - intros fuel s buf e s' buf' n Ls X. apply G in X. eapply (fi_all H); eauto.
  - intros fuel s buf e s' buf' n T Ls R X. apply G in X. eapply (fi_loud H); eauto.
  - intros fuel s buf e s' buf' n T Ls id X. apply G in X. eapply (fi_pos H); eauto.
Qed.
Lemma max_fills : fills (max_encoder E) p l (fun st => L (mx_inner st)).
Proof.
  assert (G : forall fuel st buf e s' buf' n, enc_encode (max_encoder E) fuel st buf e = (s', buf', Ok n) ->
    enc_encode E fuel (mx_inner st) buf e = (mx_inner s', buf', Ok n)).
  { intros fuel [s c mx] buf e s' buf' n. cbn. unfold max_encode. cbn.
    destruct (enc_encode E fuel s buf e) as [[s1 b1] [k| | |]]; try discriminate.
    destruct (u64_add _ _); [|discriminate]. destruct (_ <=? _)%N; [|discriminate]. intros [= <- <- <-]. reflexivity. }
  split; cbv beta.
  - apply max_tidy, H.
  - intros fuel [s c mx] buf e s' buf' r Ls. cbn in *. unfold max_encode. cbn.
    destruct (enc_encode E fuel s buf e) as [[s1 b1] r1] eqn:X. pose proof (fi_encode H _ _ _ _ Ls X).
    destruct r1; [destruct (u64_add _ _); [destruct (_ <=? _)%N|]|..]; intros [= <- <- <-]; auto.
  - intros fuel [s c mx] i s' r Ls. cbn in *. destruct (enc_start E fuel s i) as [s1 r1] eqn:X. intros [= <- <-].
    eapply (fi_start H); eauto.
  - intros fuel s buf e s' buf' n Ls X. apply G in X. cbn. eapply (fi_all H); eauto.
  - intros fuel s buf e s' buf' n T Ls R X. apply G in X. cbn. eapply (fi_loud H); eauto.
  - intros fuel s buf e s' buf' n T Ls id X. apply G in X. cbn in *. eapply (fi_pos H); eauto.
Qed.
Lemma length_fills : fills (length_encoder E) true true (fun st => L (ln_inner st)).
Proof.
  assert (G : forall fuel st buf e s' buf' n, L (ln_inner st) -> enc_encode (length_encoder E) fuel st buf e = (s', buf', Ok n) ->
    ln_remaining s' = (ln_remaining st - N.of_nat n)%N /\ (N.of_nat n <= ln_remaining st)%N /\
    (ln_remaining s' <> 0%N -> (len buf < ln_remaining st)%N /\ is_reached e = false /\ n = length buf)).
  { intros fuel [s ex rm] buf e s' buf' n Ls. cbn. unfold length_encode. cbn [ln_inner ln_expected ln_remaining].
    destruct (N.ltb_spec (len buf) rm) as [LT|LE]; cbn [andb]; [destruct (is_reached e) eqn:R; [discriminate|]|].
    - destruct (enc_encode E fuel s (firstn (length buf) buf) e) as [[s1 b1] [k| | |]] eqn:X; try discriminate.
      unfold u64_sub. destruct (N.leb_spec (N.of_nat k) rm); [|discriminate].
      destruct (enc_idle E s1 && negb (rm - N.of_nat k =? 0)%N) eqn:Q; [discriminate|]. intros [= <- <- <-]. cbn.
      split; auto. split; auto. intros Z. repeat split; auto. rewrite firstn_all in X. eapply (fi_all H); eauto.
      destruct (enc_idle E s1); auto. lia.
    - destruct (enc_encode E fuel s (firstn (N.to_nat rm) buf) (eos_new true)) as [[s1 b1] [k| | |]] eqn:X; try discriminate.
      unfold u64_sub. destruct (N.leb_spec (N.of_nat k) rm); [|discriminate].
      destruct (enc_idle E s1 && negb (rm - N.of_nat k =? 0)%N) eqn:Q; [discriminate|]. intros [= <- <- <-]. cbn.
      split; auto. split; auto. intros Z. exfalso. apply (fi_all H) in X; auto.
      + rewrite firstn_length in X. unfold len in *. lia.
      + destruct (enc_idle E s1); auto. lia. }
  split; cbv beta.
  - apply length_tidy, H.
  - intros fuel [s ex rm] buf e s' buf' r Ls. cbn in *. unfold length_encode. cbn [ln_inner ln_expected ln_remaining].
    destruct (_ && _); [intros [= <- <- <-]; auto|].
    match goal with |- context [enc_encode E fuel s ?a ?b] => destruct (enc_encode E fuel s a b) as [[s1 b1] r1] eqn:X end.
    pose proof (fi_encode H _ _ _ _ Ls X).
    destruct r1; [destruct (u64_sub _ _); [destruct (_ && _)|]|..]; intros [= <- <- <-]; auto.
  - intros fuel [s ex rm] i s' r Ls. cbn in *. destruct (_ =? _)%N; [|intros [= <- <-]; auto].
    destruct (enc_start E fuel s i) as [s1 r1] eqn:X. intros [= <- <-]. eapply (fi_start H); eauto.
  - intros fuel st buf e s' buf' n Ls X id. destruct (G _ _ _ _ _ _ _ Ls X) as (G1 & G2 & G3). cbn in id. apply G3. lia.
  - intros fuel st buf e s' buf' n _ Ls R X. destruct (G _ _ _ _ _ _ _ Ls X) as (G1 & G2 & G3). cbn.
    destruct (N.eqb_spec (ln_remaining s') 0) as [|Z]; auto. destruct (G3 Z) as (_ & G4 & _). congruence.
  - intros fuel st buf e s' buf' n _ Ls id X. destruct (G _ _ _ _ _ _ _ Ls X) as (G1 & G2 & G3). cbn in *.
    assert (B : buf <> [] -> length buf <> 0) by (destruct buf; cbn; congruence).
    destruct (N.eqb_spec (ln_remaining s') 0) as [Z|Z].
    + split; intros; lia.
    + destruct (G3 Z) as (_ & _ & G4). split; [|discriminate]. intros NB. specialize (B NB). lia.
Qed.
Lemma pull_fills : forall fuel items s, L s ->
  match repeat_pull E fuel s items with
  | PullGo s' _ => L s' /\ enc_idle E s' = false
  | PullDone s' => L s'
  | PullFail s' _ r => L s' /\ forall n, r <> Ok n
  end.
Proof.
  induction items as [|i items IH]; intros s Ls; cbn [repeat_pull]; destruct (enc_idle E s) eqn:id; auto.
  destruct (enc_start E fuel s i) as [s1 r1] eqn:X. pose proof (fi_start H _ _ _ Ls X).
  destruct r1; [apply IH; auto|split; [auto|discriminate]..].
Qed.
Lemma repeat_loop_L : forall k fuel st off buf e s' buf' r, L (rp_inner st) ->
  repeat_loop E k fuel st off buf e = (s', buf', r) -> L (rp_inner s').
Proof.
  induction k as [|k IH]; intros fuel st off buf e s' buf' r Ls; cbn [repeat_loop]; [intros [= <- <- <-]; auto|].
  match goal with |- context [repeat_pull E fuel _ ?x] => pose proof (pull_fills fuel x Ls) as P; destruct (repeat_pull E fuel (rp_inner st) x) end.
  - destruct P as [P1 P2]. destruct (slice_from off buf); [|intros [= <- <- <-]; auto].
    destruct (enc_encode E fuel s l0 e) as [[s1 b1] r1] eqn:X. pose proof (fi_encode H _ _ _ _ P1 X).
    destruct r1; [destruct (_ =? 0); [|intros Y; apply IH in Y; auto]|..]; intros [= <- <- <-]; auto.
  - intros [= <- <- <-]; auto.
  - intros [= <- <- <-]. apply P.
Qed.
Lemma repeat_loop_all : p = true -> forall k fuel st off buf e s' buf' n, L (rp_inner st) -> off <= length buf ->
  repeat_loop E k fuel st off buf e = (s', buf', Ok n) ->
  (rp_items s' <> None -> n = length buf) /\ (l = true -> is_reached e = true -> rp_items s' = None).
Proof.
  intros Tp. induction k as [|k IH]; intros fuel st off buf e s' buf' n Ls LE; cbn [repeat_loop]; [discriminate|].
  match goal with |- context [repeat_pull E fuel _ ?x] => pose proof (pull_fills fuel x Ls) as P; destruct (repeat_pull E fuel (rp_inner st) x) end.
  - destruct P as [P1 P2]. unfold slice_from. destruct (Nat.leb_spec off (length buf)); [|lia].
    destruct (enc_encode E fuel s (skipn off buf) e) as [[s1 b1] [m| | |]] eqn:X; try discriminate.
    pose proof (fi_encode H _ _ _ _ P1 X) as L1. destruct (fi_tidy H _ _ _ _ X) as [T1 T2]. specialize (T2 m eq_refl).
    rewrite skipn_length in T1, T2.
    destruct (fi_pos H _ _ _ _ Tp P1 P2 X) as [N1 N2].
    destruct (Nat.eqb_spec m 0).
    + subst m. intros [= <- <- <-]. cbn. split.
      * intros _. assert (skipn off buf = []) as Z.
        { destruct (skipn off buf); auto. exfalso. apply N1; [discriminate|auto]. }
        apply (f_equal (@length byte)) in Z. rewrite skipn_length in Z. cbn in Z. lia.
      * intros T R. exfalso. apply N2; auto. exact (fi_loud H _ _ _ _ T P1 R X).
    + intros Y. apply IH in Y; auto.
      * rewrite app_length, firstn_length in Y. replace (Nat.min off (length buf) + length b1) with (length buf) in Y by lia. auto.
      * rewrite app_length, firstn_length. lia.
  - intros [= <- <- <-]. cbn. split; [congruence|auto].
  - intros [= _ _ Z]. destruct P as [_ P]. now apply P in Z.
Qed.
Lemma repeat_fills : p = true -> fills (repeat_encoder E) false l (fun st => L (rp_inner st)).
Proof.
  intros Tp. split; cbv beta; try (intros; discriminate).
  - intros fuel s buf e s' buf' r X. cbn in X. eapply repeat_loop_tidy in X; eauto; [apply H|lia].
  - intros fuel s buf e s' buf' r Ls X. cbn in X. eapply repeat_loop_L; eauto.
  - intros fuel s i s' r Ls. cbn. destruct (repeat_idle s); intros [= <- <-]; auto.
  - intros fuel s buf e s' buf' n Ls X id. apply (repeat_loop_all Tp) in X; auto; [|lia]. apply X.
    cbn in id. unfold repeat_idle in id. destruct (rp_items s'); congruence.
  - intros fuel s buf e s' buf' n T Ls R X. apply (repeat_loop_all Tp) in X; auto; [|lia]. cbn. unfold repeat_idle.
    destruct X as [_ X]. now rewrite X.
Qed.
Lemma etry_L : forall fuel s off buf e, L s ->
  match try_encode E fuel s off buf e with
  | (TGo s' o, b) => L s' /\ enc_idle E s' = true
  | (TRet s' r, b) => L s' /\ forall o, r = Ok o -> enc_idle E s = false /\ enc_idle E s' = false /\ (l = true -> is_reached e = false)
  end.
Proof.
  intros fuel s off buf e Ls. unfold try_encode. destruct (enc_idle E s) eqn:i0; [auto|].
  destruct (slice_from off buf) as [b|]; [|split; [auto|discriminate]].
  destruct (enc_encode E fuel s b e) as [[s1 b1] r1] eqn:X. pose proof (fi_encode H _ _ _ _ Ls X).
  destruct r1 as [n| | |]; try (split; [auto|discriminate]).
  destruct (enc_idle E s1) eqn:i1; auto. split; auto. intros o _. repeat split; auto.
  intros T. destruct (is_reached e) eqn:R; auto. rewrite (fi_loud H _ _ _ _ T Ls R X) in i1. discriminate.
Qed.
Lemma etry_n : forall fuel s off buf e, L s -> off <= length buf ->
  match try_encode E fuel s off buf e with
  | (TGo s' o, b) => length b = length buf /\ off <= o <= length buf /\ (p = true -> enc_idle E s = false -> o <> off)
  | (TRet s' r, b) => length b = length buf /\ forall o, r = Ok o -> o = length buf
  end.
Proof.
  intros fuel s off buf e Ls LE. pose proof (etry_tidy (fi_tidy H) fuel s buf e LE) as T. unfold try_encode in *.
  destruct (enc_idle E s) eqn:i0; [intuition congruence|].
  unfold slice_from in *. destruct (Nat.leb_spec off (length buf)); [|lia].
  destruct (enc_encode E fuel s (skipn off buf) e) as [[s1 b1] r1] eqn:X.
  destruct r1 as [n| | |]; try (split; [apply T|discriminate]).
  destruct (enc_idle E s1) eqn:i1.
  - split; [apply T|]. split; [apply T|]. intros Tp _. pose proof (fi_pos H _ _ _ _ Tp Ls i0 X) as [_ N]. specialize (N i1). lia.
  - split; [apply T|]. intros o [= <-]. apply (fi_all H) in X; auto. rewrite skipn_length in X. lia.
Qed.
End One.
Arguments etry_L {S I E p l L} H fuel s off buf e _.
Arguments etry_n {S I E p l L} H fuel s off buf e _ _.
Section Two.
Context {S0 S1 I0 I1 : Type} (E0 : Encoder S0 I0) (E1 : Encoder S1 I1) (p0 l0 p1 l1 : bool)
  (L0 : S0 -> Prop) (L1 : S1 -> Prop) (H0 : fills E0 p0 l0 L0) (H1 : fills E1 p1 l1 L1).
Lemma pair_fills : fills (tuple2_encoder E0 E1) (p0 && p1) (l0 && l1) (fun s => L0 (fst s) /\ L1 (snd s)).
Proof.
  assert (G : forall fuel s buf e s' buf' r, L0 (fst s) -> L1 (snd s) ->
    enc_encode (tuple2_encoder E0 E1) fuel s buf e = (s', buf', r) ->
    (L0 (fst s') /\ L1 (snd s')) /\ forall n, r = Ok n ->
    (enc_idle (tuple2_encoder E0 E1) s' = false -> n = length buf) /\
    (l0 && l1 = true -> is_reached e = true -> enc_idle (tuple2_encoder E0 E1) s' = true) /\
    (p0 && p1 = true -> enc_idle (tuple2_encoder E0 E1) s = false ->
      (buf <> [] -> n <> 0) /\ (enc_idle (tuple2_encoder E0 E1) s' = true -> n <> 0))).
  { intros fuel [s0 s1] buf e s' buf' r A0 A1. cbn in A0, A1.
    assert (B : buf <> [] -> length buf <> 0) by (destruct buf; cbn; congruence).
    assert (XI : forall a b, enc_idle (tuple2_encoder E0 E1) (a, b) = enc_idle E0 a && enc_idle E1 b) by reflexivity.
    unfold tuple2_encoder, tuple_of_enc_parts, enc_encode, enc_parts2, ep_snoc, ep_encode, ep_one. cbn [fst snd].
    pose proof (etry_L H0 fuel s0 0 buf e A0) as T0. pose proof (etry_n H0 fuel s0 0 buf e A0 (Nat.le_0_l _)) as T1.
    destruct (try_encode E0 fuel s0 0 buf e) as [[t o|t q] b].
    - destruct T0 as [T2 T3]. destruct T1 as (T4 & T5 & T6).
      pose proof (etry_L H1 fuel s1 o b e A1) as U0. pose proof (etry_n H1 fuel s1 o b e A1 ltac:(lia)) as U1.
      destruct (try_encode E1 fuel s1 o b e) as [[t1 o1|t1 q1] b1]; intros Z; injection Z as <- <- <-; cbn [fst snd]; (split; [tauto|]); intros n Q; rewrite !XI.
      + injection Q as <-. destruct U0 as [U2 U3]. destruct U1 as (U4 & U5 & U6). rewrite T3, U3. cbn [andb].
        split; [discriminate|]. split; [auto|]. intros T N. apply andb_prop in T as [Ta Tb].
        assert (o1 <> 0); [|auto]. destruct (enc_idle E0 s0).
        * cbn in N. specialize (U6 Tb N). lia.
        * specialize (T6 Ta eq_refl). lia.
      + subst q1. destruct U0 as [U2 U3]. destruct (U3 _ eq_refl) as (U4 & U5 & U6). destruct U1 as [U7 U8]. specialize (U8 _ eq_refl).
        rewrite U5, andb_false_r. split; [lia|]. split.
        * intros T R. apply andb_prop in T as [Ta Tb]. rewrite (U6 Tb) in R. discriminate.
        * intros T N. split; [|discriminate]. intros NB. specialize (B NB). lia.
    - intros Z; injection Z as <- <- <-; cbn [fst snd]. split; [tauto|]. intros n ->. rewrite !XI.
      destruct T0 as [U2 U3]. destruct (U3 _ eq_refl) as (U4 & U5 & U6). destruct T1 as [U7 U8]. specialize (U8 _ eq_refl).
      rewrite U5. cbn [andb]. split; [lia|]. split.
      * intros T R. apply andb_prop in T as [Ta Tb]. rewrite (U6 Ta) in R. discriminate.
      * intros T N. split; [|discriminate]. intros NB. specialize (B NB). lia. }
  split; cbv beta.
  - apply pair_tidy; [apply H0|apply H1].
  - intros fuel s buf e s' buf' r [A0 A1] X. now apply (G _ _ _ _ _ _ _ A0 A1 X).
  - intros fuel [s0 s1] [i0 i1] s' r [A0 A1]. cbn in *.
    destruct (enc_start E0 fuel s0 i0) as [t0 r0] eqn:X0. pose proof (fi_start H0 _ _ _ A0 X0).
    destruct r0; [destruct (enc_start E1 fuel s1 i1) as [t1 r1] eqn:X1; pose proof (fi_start H1 _ _ _ A1 X1)|..];
      intros Z; injection Z as <- <-; cbn; auto.
  - intros fuel s buf e s' buf' n [A0 A1] X. destruct (G _ _ _ _ _ _ _ A0 A1 X) as [_ Y]. now apply (Y n).
  - intros fuel s buf e s' buf' n T [A0 A1] R X. destruct (G _ _ _ _ _ _ _ A0 A1 X) as [_ Y]. now apply (Y n).
  - intros fuel s buf e s' buf' n T [A0 A1] id X. destruct (G _ _ _ _ _ _ _ A0 A1 X) as [_ Y]. now apply (Y n).
Qed.
End Two.
Lemma filling_fills : forall S I (E : Encoder S I) p l Init, filling E p l Init -> filling_ok E p l Init.
Proof.
  induction 1; try (destruct IHfilling as (L & P & Q)).
  - exists L. auto.
  - eexists. split; [apply bytes_fills|auto].
  - eexists. split; [apply null_fills|auto].
  - eexists. split; [apply num_fills; auto|]. intros s ->. cbn. auto.
  - eexists. split; [apply pad_fills|auto].
  - eexists. split; [apply mono_fills|]. intros s ->. cbn. auto.
  - exists L. split; [apply map_err_fills|]; auto.
  - eapply filling_sub with (E := E); try reflexivity; [|exists L; auto]. intros fuel s j s' r X. cbn in X. eauto.
  - eapply filling_sub with (E := E); try reflexivity; [|exists L; auto]. intros fuel s j s' r X. cbn in X.
    destruct (f j); [eauto|]. injection X as <- <-. auto.
  - eapply filling_sub with (E := E); try reflexivity; [|exists L; auto]. intros fuel s j s' r X. cbn in X.
    destruct j; [eauto|]. injection X as <- <-. auto.
  - eexists. split; [eapply repeat_fills; eauto|cbv beta; auto].
  - eexists. split; [eapply length_fills; eauto|cbv beta; auto].
  - eexists. split; [eapply max_fills; eauto|cbv beta; auto].
  - eexists. split; [apply pre_fills|auto].
  - destruct IHfilling1 as (L0 & P0 & Q0), IHfilling2 as (L1 & P1 & Q1).
    eexists. split; [apply (pair_fills P0 P1)|]. intros [a b] [A B]. auto.
  - destruct IHfilling1 as (L0 & P0 & Q0), IHfilling2 as (L1 & P1 & Q1).
    destruct (etuple_snoc_sim E1 H) as (A & B & _ & C).
    eapply filling_sub with (E := tuple2_encoder (tuple_of_enc_parts P) E1); auto.
    + intros fuel s j s' r X. rewrite <- B in X. eauto.
    + eexists. split; [apply (pair_fills P0 P1)|]. intros [a b] [X Y]. auto.
Qed.
Lemma worked_L : forall S I (E : Encoder S I) p l L s s', fills E p l L -> L s -> worked E s s' -> L s'.
Proof. intros S I E p l L s s' F Ls. induction 1; auto; [eapply fi_encode|eapply fi_start]; eauto. Qed.
Lemma worked_trans : forall S I (E : Encoder S I) a b c, worked E a b -> worked E b c -> worked E a c.
Proof. intros S I E a b c A. induction 1; auto; [eapply wk_encode|eapply wk_start]; eauto. Qed.
Lemma wr_all_vec : forall d b, wr_write_all (mkWriter d []) b = (mkWriter (d ++ b) [], Ok tt).
Proof.
  intros d b. unfold wr_write_all. cbn. destruct b as [|x b]; [now rewrite app_nil_r|]. cbn. now rewrite skipn_all.
Qed.
(** [encode_all] into a [Vec] fails only as the encoder fails. *)
Lemma encode_all_blame : forall S I (E : Encoder S I) p l L ifuel k, fills E p l L ->
  forall fuel s buf d s' w', L s -> buf <> [] -> encode_all_loop E fuel ifuel s buf (mkWriter d []) = (s', w', Err k) ->
  exists s1 b s2 b', worked E s s1 /\ enc_encode E ifuel s1 b (eos_new false) = (s2, b', Err k).
Proof.
  intros S I E p l L ifuel k F. induction fuel as [|fuel IH]; intros s buf d s' w' Ls NB; cbn [encode_all_loop];
    (destruct (enc_idle E s) eqn:i0; [discriminate|]); [discriminate|].
  destruct (enc_encode E ifuel s buf (eos_new false)) as [[s1 b1] [n|k1| |]] eqn:X; try discriminate.
  - destruct (n <=? length b1); [|discriminate]. rewrite wr_all_vec.
    destruct (fi_tidy F _ _ _ _ X) as [T1 _].
    destruct (negb (enc_idle E s1) && (n =? 0)) eqn:Q.
    + exfalso. apply andb_prop in Q as [Q1 Q2]. apply (fi_all F) in X; auto.
      * destruct buf; [congruence|]. cbn in X. lia.
      * now destruct (enc_idle E s1).
    + intros Y. apply IH in Y.
      * destruct Y as (a & b & c & d0 & Y1 & Y2). exists a, b, c, d0. split; auto. eapply worked_trans; [|eauto].
        eapply wk_encode; [constructor|eauto].
      * eapply fi_encode; eauto.
      * destruct buf; [congruence|]. destruct b1; [discriminate T1|discriminate].
  - cbn. intros [= <- <- <-]. exists s, buf, s1, b1. split; [constructor|auto].
Qed.
Lemma into_bytes_blame : forall S I (E : Encoder S I) p L fuel s i s', fills E p true L -> L s ->
  encode_into_bytes E fuel s i = (s', Err InconsistentState) ->
  exists s1, worked E s s1 /\
    ((exists s2, enc_start E fuel s1 i = (s2, Err InconsistentState)) \/
     enc_req E s1 = Err InconsistentState \/
     (exists b e s2 b', enc_encode E fuel s1 b e = (s2, b', Err InconsistentState))).
Proof.
  intros S I E p L fuel s i s' F Ls. unfold encode_into_bytes.
  destruct (enc_start E fuel s i) as [s1 r1] eqn:X. pose proof (fi_start F _ _ _ Ls X) as L1.
  assert (W : worked E s s1) by (eapply wk_start; [constructor|eauto]).
  destruct r1 as [u|k| |]; try discriminate.
  2: { intros [= _ ->]. exists s. split; [constructor|eauto]. }
  destruct (enc_req E s1) as [[n| |]|k| |] eqn:Q; try discriminate.
  - destruct (n <=? isize_max)%N; [|discriminate].
    destruct (enc_encode E fuel s1 _ (eos_new true)) as [[s2 b] [m|k| |]] eqn:Y; try discriminate.
    + rewrite (fi_loud F fuel s1 _ (eos_new true) eq_refl L1 eq_refl Y). discriminate.
    + intros [= _ ->]. exists s1. split; auto. right; right. eauto 6.
  - unfold encode_all. destruct (encode_all_loop E fuel fuel s1 _ _) as [[s2 w] [u2|k| |]] eqn:Y; try discriminate.
    + destruct (_ <=? _)%N; discriminate.
    + intros [= _ ->]. eapply encode_all_blame in Y; eauto; [|discriminate].
      destruct Y as (a & b & c & d & Y1 & Y2). exists a. split; [eapply worked_trans; eauto|]. right; right. eauto 6.
  - intros [= _ ->]. exists s1. auto.
Qed.
