(** * Proofs about which calls to an encoder return. *)
From Coq Require Import Lia ZifyBool ZifyNat ZifyN.
From Verif Require Export Returns SafeEnc.
Set Implicit Arguments.

(** ** [tidy] *)
Lemma bytes_tidy : forall B (BX : ByteBox B) s buf e s' buf' r, bytes_encode BX s buf e = (s', buf', r) ->
  length buf' = length buf /\ forall n, r = Ok n -> n <= length buf.
Proof.
  intros B BX [[b|] off] buf e s' buf' r; unfold bytes_encode; cbn.
  2: { intros [= <- <- <-]. split; auto. intros n [= <-]. lia. }
  unfold usize_sub. destruct (Nat.leb_spec off (length (bx_ref BX b))).
  2: { intros [= <- <- <-]. split; auto. discriminate. }
  set (k := Nat.min (length buf) (length (bx_ref BX b) - off)).
  set (src := firstn k (skipn off (bx_ref BX b))).
  assert (LS : length src = k) by (unfold src; rewrite firstn_length, skipn_length; lia).
  assert (LO : length (overwrite buf 0 src) = length buf) by (apply overwrite_length; lia).
  destruct (_ =? _); [|destruct (is_reached e)]; intros [= <- <- <-]; (split; [exact LO|]);
    intros n X; inversion X; subst; try lia.
Qed.
Lemma tidy_sub : forall S I J (E : Encoder S I) (E' : Encoder S J),
  (forall fuel s buf e, enc_encode E' fuel s buf e = enc_encode E fuel s buf e) -> tidy E -> tidy E'.
Proof. intros S I J E E' A H fuel s buf e s' buf' r. rewrite A. apply H. Qed.
Lemma mono_tidy : forall I (f : MonoEncode I), tidy (mono_encoder f).
Proof.
  intros I f fuel [o b] buf e s' buf' r. cbn. unfold mono_encode; cbn. destruct o as [i|].
  2: { destruct (bytes_encode vec_box b buf e) as [[b1 buf1] r1] eqn:X. intros [= <- <- <-]. eapply bytes_tidy; eauto. }
  destruct (f i) as [chunks err].
  pose proof (wc_fold_room chunks (mkWC [] (length buf) [])) as R. cbn in R.
  set (w := fold_left _ chunks _) in *.
  assert (LA : length (wc_a w) <= length buf) by lia.
  assert (LO : length (overwrite buf 0 (wc_a w)) = length buf) by (apply overwrite_length; lia).
  destruct err; [|destruct (wc_b w); [|destruct (bytes_start b (b0 :: l)) as [b' [u| | |]]]];
    intros [= <- <- <-]; (split; [exact LO|]); intros n X; inversion X; subst; lia.
Qed.
Section One.
Context {S I : Type} (E : Encoder S I) (HE : tidy E).
Lemma etry_tidy : forall fuel s off buf e, off <= length buf ->
  match try_encode E fuel s off buf e with
  | (TGo _ o, b) => off <= o <= length buf /\ length b = length buf
  | (TRet _ r, b) => length b = length buf /\ forall o, r = Ok o -> off <= o <= length buf
  end.
Proof.
  intros fuel s off buf e L. unfold try_encode. destruct (enc_idle E s); [lia|].
  unfold slice_from. destruct (Nat.leb_spec off (length buf)); [|lia].
  destruct (enc_encode E fuel s (skipn off buf) e) as [[s1 b1] r] eqn:X. apply HE in X.
  rewrite skipn_length in X. destruct X as [X1 X2].
  assert (LB : length (firstn off buf ++ b1) = length buf) by (rewrite app_length, firstn_length; lia).
  destruct r as [n| | |]; try (split; [exact LB|discriminate]). specialize (X2 n eq_refl).
  destruct (enc_idle E s1); [lia|]. split; auto. intros o [= <-]. lia.
Qed.
Lemma length_tidy : tidy (length_encoder E).
Proof.
  intros fuel [s ex rm] buf e s' buf' r. cbn. unfold length_encode; cbn.
  destruct (_ && _). { intros [= <- <- <-]. split; auto. discriminate. }
  match goal with |- context [firstn ?x buf] => set (lim := x) end.
  destruct (enc_encode E fuel s (firstn lim buf) _) as [[s1 b1] r1] eqn:X. apply HE in X.
  rewrite firstn_length in X. destruct X as [X1 X2].
  assert (LB : length (b1 ++ skipn lim buf) = length buf) by (rewrite app_length, skipn_length; lia).
  destruct r1 as [n| | |]; [|intros [= <- <- <-]; split; [exact LB|discriminate]..].
  specialize (X2 n eq_refl). destruct (u64_sub _ _); [destruct (_ && _)|]; intros [= <- <- <-]; (split; [exact LB|]);
    intros k K; inversion K; subst; lia.
Qed.
Lemma max_tidy : tidy (max_encoder E).
Proof.
  intros fuel [s c mx] buf e s' buf' r. cbn. unfold max_encode; cbn.
  destruct (enc_encode E fuel s buf e) as [[s1 b1] r1] eqn:X. apply HE in X. destruct X as [X1 X2].
  destruct r1 as [n| | |]; [|intros [= <- <- <-]; split; [exact X1|discriminate]..].
  specialize (X2 n eq_refl). destruct (u64_add _ _); [destruct (_ <=? _)%N|]; intros [= <- <- <-]; (split; [exact X1|]);
    intros k K; inversion K; subst; lia.
Qed.
Lemma slice_tidy : tidy (slice_encoder E).
Proof.
  intros fuel [s c] buf e s' buf' r. cbn. unfold slice_encode; cbn.
  set (lim := N.to_nat (N.min (len buf) c)).
  destruct (eos_back e _) as [e'|]. 2: { intros [= <- <- <-]. split; auto. discriminate. }
  destruct (enc_encode E fuel s (firstn lim buf) _) as [[s1 b1] r1] eqn:X. apply HE in X.
  rewrite firstn_length in X. destruct X as [X1 X2].
  assert (LB : length (b1 ++ skipn lim buf) = length buf) by (rewrite app_length, skipn_length; lia).
  destruct r1 as [n| | |]; [|intros [= <- <- <-]; split; [exact LB|discriminate]..].
  specialize (X2 n eq_refl). destruct (u64_sub _ _); intros [= <- <- <-]; (split; [exact LB|]);
    intros k K; inversion K; subst; lia.
Qed.
Lemma last_tidy : tidy (last_encoder E).
Proof.
  intros fuel [s o] buf e s' buf' r. cbn. unfold last_encode; cbn.
  assert (G : forall t it, (let '(s'0, buf'0, r0) := enc_encode E fuel t buf e in (mkLast s'0 it, buf'0, r0)) = (s', buf', r) ->
     length buf' = length buf /\ forall n, r = Ok n -> n <= length buf).
  { intros t it. destruct (enc_encode E fuel t buf e) as [[s1 b1] r1] eqn:X. intros [= <- <- <-]. eapply HE; eauto. }
  destruct (enc_idle E s); [|apply G]. destruct o as [i|]; [|apply G].
  destruct (enc_start E fuel s i) as [s1 [u| | |]]; [apply G|intros [= <- <- <-]; split; auto; discriminate..].
Qed.
Lemma repeat_loop_tidy : forall n fuel st off buf e s' buf' r, off <= length buf ->
  repeat_loop E n fuel st off buf e = (s', buf', r) ->
  length buf' = length buf /\ forall k, r = Ok k -> k <= length buf.
Proof.
  induction n as [|n IH]; intros fuel [s its] off buf e s' buf' r L; cbn [repeat_loop rp_inner rp_items].
  { intros [= <- <- <-]. split; auto. discriminate. }
  set (items := match its with Some l => l | None => [] end).
  assert (PF : forall s1 rest q, repeat_pull E fuel s items = PullFail s1 rest q -> forall k, q <> Ok k).
  { revert s. induction items as [|i items IHi]; intros s s1 rest q; cbn [repeat_pull]; destruct (enc_idle E s); try discriminate.
    destruct (enc_start E fuel s i) as [s2 [u| | |]]; eauto; intros [= _ _ <-]; discriminate. }
  destruct (repeat_pull E fuel s items) as [s1 rest|s1|s1 rest q] eqn:P.
  - unfold slice_from. destruct (Nat.leb_spec off (length buf)); [|lia].
    destruct (enc_encode E fuel s1 (skipn off buf) e) as [[s2 b2] r2] eqn:X. apply HE in X.
    rewrite skipn_length in X. destruct X as [X1 X2].
    assert (LB : length (firstn off buf ++ b2) = length buf) by (rewrite app_length, firstn_length; lia).
    destruct r2 as [k| | |]; [|intros [= <- <- <-]; split; [exact LB|discriminate]..].
    specialize (X2 k eq_refl). destruct (k =? 0).
    + intros [= <- <- <-]. split; auto. intros z [= <-]. lia.
    + intros Y. apply IH in Y; [|lia]. now rewrite LB in Y.
  - intros [= <- <- <-]. split; auto. intros k [= <-]. auto.
  - intros [= <- <- <-]. split; auto. intros z ->. exfalso. eapply PF; eauto.
Qed.
Lemma map_err_tidy : forall g, tidy (map_err_encoder E g).
Proof.
  intros g fuel s buf e s' buf' r. cbn. destruct (enc_encode E fuel s buf e) as [[s1 b1] r1] eqn:X. apply HE in X.
  destruct X as [X1 X2]. intros [= <- <- <-]. split; auto. destruct r1; cbn; intros z Z; inversion Z; subst; auto.
Qed.
End One.
Section Two.
Context {S0 S1 I0 I1 : Type} (E0 : Encoder S0 I0) (E1 : Encoder S1 I1) (H0 : tidy E0) (H1 : tidy E1).
Lemma pair_tidy : tidy (tuple2_encoder E0 E1).
Proof.
  intros fuel [s0 s1] buf e s' buf' r.
  unfold tuple2_encoder, tuple_of_enc_parts, enc_encode, enc_parts2, ep_snoc, ep_encode, ep_one. cbn [fst snd].
  pose proof (etry_tidy H0 fuel s0 (off := 0) buf e ltac:(lia)) as T0.
  destruct (try_encode E0 fuel s0 0 buf e) as [[t0 o0|t0 r0] b0].
  - pose proof (etry_tidy H1 fuel s1 (off := o0) b0 e ltac:(lia)) as T1.
    destruct (try_encode E1 fuel s1 o0 b0 e) as [[t1 o1|t1 r1] b1]; intros [= <- <- <-].
    + split; [lia|]. intros n [= <-]. lia.
    + destruct T1 as [T1 T2]. split; [lia|]. intros n X. apply T2 in X. lia.
  - intros [= <- <- <-]. destruct T0 as [T1 T2]. split; auto. intros n X. apply T2 in X. lia.
Qed.
End Two.
Lemma direct_tidy : forall S I (E : Encoder S I) st, direct E st -> tidy E.
Proof.
  induction 1; auto using mono_tidy, length_tidy, max_tidy, slice_tidy, last_tidy, map_err_tidy, pair_tidy;
    try (eapply tidy_sub; [|eassumption]; reflexivity).
  - intros fuel s buf e s' buf' r X. exact (bytes_tidy _ _ _ _ X).
  - intros fuel s buf e s' buf' r [= <- <- <-]. split; auto. intros n [= <-]. lia.
  - intros fuel s buf e s' buf' r. cbn. unfold pad_encode. destruct s; intros [= <- <- <-].
    + rewrite map_length. split; auto. intros n [= <-]. lia.
    + split; auto. intros n [= <-]. lia.
  - intros fuel s buf e s' buf' r X. exact (bytes_tidy _ _ _ _ X).
  - intros fuel s buf e s' buf' r X. cbn in X. eapply repeat_loop_tidy in X; eauto. lia.
  - intros fuel [s b] buf e s' buf' r. cbn. destruct (bytes_encode vec_box b buf e) as [[b1 buf1] r1] eqn:X.
    intros [= <- <- <-]. eapply bytes_tidy; eauto.
  - destruct (etuple_snoc_sim E1 H) as (A & _). intros fuel s buf e s' buf' r. rewrite <- A. now apply pair_tidy.
Qed.

(** ** Calls return *)
Definition eok {S I} (E : Encoder S I) (st : bool) : Prop :=
  (st = true -> forall fuel s i, snd (enc_start E fuel s i) <> OutOfFuel) /\
  forall fuel s buf e, length buf + 1 < fuel -> snd (enc_encode E fuel s buf e) <> OutOfFuel.

Section Ret.
Context {S I : Type} (E : Encoder S I).
Lemma eok_start : eok E true -> forall fuel s i, exists s' r, enc_start E fuel s i = (s', r) /\ r <> OutOfFuel.
Proof. intros [H _] fuel s i. specialize (H eq_refl fuel s i). destruct (enc_start E fuel s i); eauto. Qed.
Lemma eok_encode : forall st, eok E st -> forall fuel s buf e, length buf + 1 < fuel ->
  exists s' b r, enc_encode E fuel s buf e = (s', b, r) /\ r <> OutOfFuel.
Proof. intros st [_ H] fuel s buf e L. specialize (H fuel s buf e L). destruct (enc_encode E fuel s buf e) as [[s1 b1] r1]; eauto. Qed.
Arguments eok_encode {st} _ fuel s buf e _.
Lemma etry_ret : forall st, eok E st -> forall fuel s off buf e, length buf + 1 < fuel ->
  match fst (try_encode E fuel s off buf e) with TRet _ OutOfFuel => False | _ => True end.
Proof.
  intros st H fuel s off buf e L. unfold try_encode. destruct (enc_idle E s); cbn; auto.
  unfold slice_from. destruct (Nat.leb_spec off (length buf)); cbn; auto.
  destruct (eok_encode H fuel s (skipn off buf) e) as (s1 & b1 & r1 & X & NR); [rewrite skipn_length; lia|].
  rewrite X. destruct r1; cbn; auto. destruct (enc_idle E s1); auto.
Qed.
Lemma map_err_eok : forall g st, eok E st -> eok (map_err_encoder E g) st.
Proof.
  intros g st [H1 H2]. split.
  - intros T fuel s i. specialize (H1 T fuel s i). cbn. destruct (enc_start E fuel s i) as [s1 []]; cbn in *; congruence.
  - intros fuel s buf e L. specialize (H2 fuel s buf e L). cbn. destruct (enc_encode E fuel s buf e) as [[s1 b1] []]; cbn in *; congruence.
Qed.
Lemma length_eok : forall st, eok E st -> eok (length_encoder E) st.
Proof.
  intros st [H1 H2]. split.
  - intros T fuel [s ex rm] i. specialize (H1 T fuel s i). cbn. destruct (_ =? _)%N; [|cbn; congruence].
    destruct (enc_start E fuel s i); cbn in *; auto.
  - intros fuel [s ex rm] buf e L. cbn. unfold length_encode; cbn. destruct (_ && _); [cbn; congruence|].
    match goal with |- context [firstn ?x buf] => set (lim := x) end.
    match goal with |- context [enc_encode E fuel s ?x ?y] => specialize (H2 fuel s x y) end.
    rewrite firstn_length in H2. specialize (H2 ltac:(lia)).
    destruct (enc_encode E fuel s _ _) as [[s1 b1] []]; cbn in *; try congruence.
    destruct (u64_sub _ _); [destruct (_ && _)|]; cbn; congruence.
Qed.
Lemma max_eok : forall st, eok E st -> eok (max_encoder E) st.
Proof.
  intros st [H1 H2]. split.
  - intros T fuel [s c mx] i. specialize (H1 T fuel s i). cbn. destruct (enc_start E fuel s i); cbn in *; auto.
  - intros fuel [s c mx] buf e L. specialize (H2 fuel s buf e L). cbn. unfold max_encode; cbn.
    destruct (enc_encode E fuel s _ _) as [[s1 b1] []]; cbn in *; try congruence.
    destruct (u64_add _ _); [destruct (_ <=? _)%N|]; cbn; congruence.
Qed.
Lemma slice_eok : forall st, eok E st -> eok (slice_encoder E) st.
Proof.
  intros st [H1 H2]. split.
  - intros T fuel [s c] i. specialize (H1 T fuel s i). cbn. destruct (enc_start E fuel s i); cbn in *; auto.
  - intros fuel [s c] buf e L. cbn. unfold slice_encode; cbn.
    set (lim := N.to_nat (N.min (len buf) c)). destruct (eos_back e _) as [e'|]; [|cbn; congruence].
    specialize (H2 fuel s (firstn lim buf) e'). rewrite firstn_length in H2. specialize (H2 ltac:(lia)).
    destruct (enc_encode E fuel s _ _) as [[s1 b1] []]; cbn in *; try congruence.
    destruct (u64_sub _ _); cbn; congruence.
Qed.
Lemma last_eok : eok E true -> eok (last_encoder E) true.
Proof.
  intros [H1 H2]. split; [intros _ fuel s []|].
  intros fuel [s o] buf e L. cbn. unfold last_encode; cbn.
  assert (G : forall t (it : option I), snd (let '(s'0, buf'0, r0) := enc_encode E fuel t buf e in (mkLast s'0 it, buf'0, r0)) <> OutOfFuel).
  { intros t it. specialize (H2 fuel t buf e L). destruct (enc_encode E fuel t buf e) as [[s1 b1] r1]. exact H2. }
  destruct (enc_idle E s); [|apply G]. destruct o as [i|]; [|apply G].
  specialize (H1 eq_refl fuel s i). destruct (enc_start E fuel s i) as [s1 []]; [apply G|cbn in *; congruence..].
Qed.
Lemma pull_ret : eok E true -> forall fuel items s s1 rest, repeat_pull E fuel s items <> PullFail s1 rest OutOfFuel.
Proof.
  intros [H _] fuel items. induction items as [|i items IH]; intros s s1 rest; cbn [repeat_pull]; destruct (enc_idle E s); try discriminate.
  specialize (H eq_refl fuel s i). destruct (enc_start E fuel s i) as [s2 []]; cbn in *; try congruence. apply IH.
Qed.
Lemma repeat_eok : tidy E -> eok E true -> eok (repeat_encoder E) true.
Proof.
  intros T H. split.
  { intros _ fuel st i. cbn. destruct (repeat_idle st); cbn; congruence. }
  intros fuel st buf e L. cbn.
  assert (G : forall n off st b, length b = length buf -> off <= length buf -> length buf < n + off ->
     snd (repeat_loop E n fuel st off b e) <> OutOfFuel).
  2: { apply G; auto; lia. }
  induction n as [|n IH]; intros off [s its] b LB LO LN; [lia|]; cbn [repeat_loop rp_items rp_inner].
  set (items := match its with Some l => l | None => [] end).
  pose proof (pull_ret H fuel items s) as PR.
  destruct (repeat_pull E fuel s items) as [s1 rest|s1|s1 rest q] eqn:P; cbn; try congruence.
  unfold slice_from. destruct (Nat.leb_spec off (length b)); [|lia].
  destruct (eok_encode H fuel s1 (skipn off b) e) as (s2 & b2 & r2 & X & NR); [rewrite skipn_length; lia|].
  rewrite X. apply T in X. rewrite skipn_length in X. destruct X as [X1 X2].
  destruct r2 as [k| | |]; cbn; try congruence. specialize (X2 k eq_refl).
  destruct (Nat.eqb_spec k 0); [cbn; congruence|]. apply IH; [|lia..].
  rewrite app_length, firstn_length. lia.
Qed.
End Ret.
Lemma pair_eok : forall S0 S1 I0 I1 (E0 : Encoder S0 I0) (E1 : Encoder S1 I1) st0 st1, tidy E0 ->
  eok E0 st0 -> eok E1 st1 -> eok (tuple2_encoder E0 E1) (st0 && st1).
Proof.
  intros S0 S1 I0 I1 E0 E1 st0 st1 T0 H0 H1. split.
  - intros T fuel [s0 s1] [i0 i1]. apply andb_prop in T. destruct T as [-> ->].
    cbn. destruct (eok_start H0 fuel s0 i0) as (t0 & r0 & -> & N0). destruct r0; cbn; try congruence.
    destruct (eok_start H1 fuel s1 i1) as (t1 & r1 & -> & N1). exact N1.
  - intros fuel [s0 s1] buf e L.
    unfold tuple2_encoder, tuple_of_enc_parts, enc_encode, enc_parts2, ep_snoc, ep_encode, ep_one. cbn [fst snd].
    pose proof (etry_ret H0 s0 0 buf e L) as R0.
    pose proof (etry_tidy T0 fuel s0 (off := 0) buf e ltac:(lia)) as T.
    destruct (try_encode E0 fuel s0 0 buf e) as [[t0 o0|t0 r0] b0]; cbn [fst] in R0.
    + pose proof (@etry_ret _ _ _ _ H1 fuel s1 o0 b0 e ltac:(lia)) as R1.
      destruct (try_encode E1 fuel s1 o0 b0 e) as [[t1 o1|t1 r1] b1]; cbn in *; [congruence|]. destruct r1; congruence.
    + cbn. destruct r0; congruence.
Qed.
Lemma direct_eok : forall S I (E : Encoder S I) st, direct E st -> eok E st.
Proof.
  assert (BR : forall B (BX : ByteBox B) s buf e, snd (bytes_encode BX s buf e) <> OutOfFuel).
  { intros B BX [[b|] off] buf e; unfold bytes_encode; cbn; [|congruence].
    destruct (usize_sub _ _); [|cbn; congruence]. destruct (_ =? _); [|destruct (is_reached e)]; cbn; congruence. }
  assert (BS : forall B (s : BytesEnc B) i, snd (bytes_start s i) <> OutOfFuel).
  { intros B s i. unfold bytes_start. destruct (bytes_enc_idle s); cbn; congruence. }
  induction 1; auto using map_err_eok, length_eok, max_eok, slice_eok, last_eok.
  - split; [intros _ fuel s i; apply BS|intros fuel s buf e _; apply BR].
  - split; cbn; intros; congruence.
  - split; [intros _ fuel [] i; cbn; congruence|intros fuel [] buf e _; cbn; congruence].
  - split.
    + intros _ fuel s i. cbn. destruct (mono_enc_idle s); cbn; congruence.
    + intros fuel [o b] buf e _. cbn. unfold mono_encode; cbn. destruct o as [i|].
      * destruct (f i) as [chunks [k|]]; [cbn; congruence|].
        destruct (wc_b _); [cbn; congruence|]. specialize (BS _ b (b0 :: l)).
        destruct (bytes_start b (b0 :: l)) as [b' []]; cbn in *; congruence.
      * specialize (BR _ vec_box b buf e). destruct (bytes_encode vec_box b buf e) as [[b1 buf1] r1]. exact BR.
  - split.
    + intros _ fuel s i. cbn. destruct (item i); [apply BS|cbn; congruence].
    + intros fuel s buf e _. apply BR.
  - destruct IHdirect as [H1 H2]. split; auto. intros T0 fuel s i. cbn. auto.
  - destruct IHdirect as [H1 H2]. split; auto. intros T0 fuel s i. cbn. destruct (f i); [auto|cbn; congruence].
  - apply repeat_eok; auto. eapply direct_tidy; eauto.
  - destruct IHdirect as [H1 H2]. split; auto. intros T0 fuel s i. cbn. destruct i; [auto|cbn; congruence].
  - split; [discriminate|]. intros fuel [s b] buf e _. cbn. specialize (BR _ vec_box b buf e).
    destruct (bytes_encode vec_box b buf e) as [[b1 buf1] r1]. exact BR.
  - apply pair_eok; auto. eapply direct_tidy; eauto.
  - destruct (etuple_snoc_sim E1 H) as (A & B & _).
    destruct (pair_eok (direct_tidy H0) IHdirect1 IHdirect2) as [X Y]. split.
    + intros T fuel s i. rewrite <- B. auto.
    + intros fuel s buf e L. rewrite <- A. auto.
Qed.
