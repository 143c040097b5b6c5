(** * Proofs about what a call may depend on. *)
From Coq Require Import Lia ZifyBool ZifyNat ZifyN.
From Verif Require Export Local ReturnsProofs.
Set Implicit Arguments.

(** ** Lists *)
Lemma firstn_sub : forall A (l l' : list A) n m, n <= m -> firstn m l' = firstn m l -> firstn n l' = firstn n l.
Proof.
  intros A l l' n m L E. apply (f_equal (firstn n)) in E. rewrite !firstn_firstn, !Nat.min_l in E by lia. auto.
Qed.
Lemma firstn_after : forall A (l l' : list A) off n,
  firstn (off + n) l' = firstn (off + n) l -> firstn n (skipn off l') = firstn n (skipn off l).
Proof. intros A l l' off n E. rewrite !firstn_skipn_comm. now rewrite E. Qed.
Lemma firstn_within : forall A (l l' : list A) lim n,
  firstn n l' = firstn n l -> firstn n (firstn lim l') = firstn n (firstn lim l).
Proof.
  intros A l l' lim n E. rewrite !firstn_firstn. eapply firstn_sub; [|exact E]. lia.
Qed.

(** ** Decoders *)
Lemma nl_sub : forall S I J (D : Decoder S I) (D' : Decoder S J),
  (forall fuel s buf e, dec_decode D' fuel s buf e = dec_decode D fuel s buf e) ->
  no_lookahead D -> no_lookahead D'.
Proof. intros S I J D D' A H fuel s buf buf' e s' n. rewrite !A. apply H. Qed.
Lemma copy_nl : forall B (BX : ByteBox B), no_lookahead (copy_decoder BX).
Proof.
  intros B BX fuel [b off] buf buf' e s' n X L F. cbn in *. unfold copy_decode in *. cbn [cd_bytes cd_off] in *.
  destruct (usize_sub _ _) as [room|]; [|discriminate]. rewrite L.
  set (k := Nat.min (length buf) room) in *.
  assert (K : k = n).
  { destruct (negb _ && _); [discriminate|]. injection X as _ <-. auto. }
  rewrite K in *. rewrite F. exact X.
Qed.
Lemma bytes_nl : forall B (BX : ByteBox B), no_lookahead (bytes_decoder BX).
Proof.
  intros B BX fuel [[b|] off] buf buf' e s' n X L F; cbn in *; unfold bytes_decode in *; cbn [bd_bytes bd_off] in *;
    [|discriminate].
  destruct (usize_sub _ _) as [room|]; [|discriminate]. rewrite L.
  set (k := Nat.min (length buf) room) in *.
  assert (K : k = n).
  { destruct (negb _ && _); [discriminate|]. injection X as _ <-. auto. }
  rewrite K in *. rewrite F. exact X.
Qed.
Lemma rem_nl : no_lookahead rem_decoder.
Proof.
  intros fuel [b eos] buf buf' e s' n X L F. cbn in *. unfold rem_decode in *. cbn [rm_eos rm_buf] in *.
  destruct eos; auto. unfold len in *. rewrite L.
  assert (B : n = length buf -> buf' = buf).
  { intros ->. rewrite <- L in F at 1. rewrite !firstn_all in F. auto. }
  destruct (bc_to_u64 _) as [q|]; [destruct (_ <=? _)%N; [|discriminate]|]; injection X as <- <-;
    rewrite (B eq_refl); auto.
Qed.
Lemma pad_nl : no_lookahead pad_decoder.
Proof.
  intros fuel [ex eos] buf buf' e s' n X L F. cbn in *. unfold pad_decode in *. cbn [pd_eos pd_expected] in *.
  destruct eos; auto. rewrite L.
  assert (B : n = length buf -> buf' = buf).
  { intros ->. rewrite <- L in F at 1. rewrite !firstn_all in F. auto. }
  destruct ex as [b|]; [destruct (forallb _ buf) eqn:A; [|discriminate]|]; injection X as <- <-; auto.
  rewrite (B eq_refl), A. auto.
Qed.
Lemma mono_nl : forall I (f : MonoDecode I), reads_only f -> no_lookahead (mono_decoder f).
Proof.
  intros I f H fuel [it b] buf buf' e s' n X L F. cbn in *. unfold mono_decode in *. cbn [md_item md_buf] in *.
  destruct (is_reached e).
  - destruct (f (b ++ buf)) as [[i|k] rd] eqn:E; [|discriminate]. injection X as <- <-.
    rewrite (H _ (b ++ buf') _ _ E).
    + now rewrite L.
    + now rewrite !app_length, L.
    + rewrite !firstn_app. f_equal. destruct (le_lt_dec (length buf) (rd - length b)) as [K|K].
      * rewrite Nat.min_l in F by lia. rewrite <- L in F at 1. rewrite !firstn_all in F. now rewrite F.
      * rewrite Nat.min_r in F by lia. auto.
  - injection X as <- <-. rewrite <- L in F at 1. rewrite !firstn_all in F. now rewrite F.
Qed.

Section One.
Context {S I : Type} (D : Decoder S I) (HD : no_lookahead D).
Lemma nl_use : forall fuel s buf buf' e s' n,
  dec_decode D fuel s buf e = (s', Ok n) -> length buf' = length buf -> firstn n buf' = firstn n buf ->
  dec_decode D fuel s buf' e = (s', Ok n).
Proof. exact HD. Qed.
(** What a [bytecodec_try_decode!] step does depends on the consumed bytes. *)
Lemma try_nl : forall fuel s off buf buf' e, length buf' = length buf ->
  match try_decode D fuel s off buf e with
  | TGo _ o as t | TRet _ (Ok o) as t =>
      off <= o /\ (firstn o buf' = firstn o buf -> try_decode D fuel s off buf' e = t)
  | _ => True
  end.
Proof.
  intros fuel s off buf buf' e L. unfold try_decode. destruct (dec_idle D s); [auto|].
  unfold slice_from. rewrite L. destruct (off <=? length buf); [|exact Logic.I].
  destruct (dec_decode D fuel s (skipn off buf) e) as [s1 [n| | |]] eqn:X; auto.
  assert (Y : firstn (off + n) buf' = firstn (off + n) buf ->
     dec_decode D fuel s (skipn off buf') e = (s1, Ok n)).
  { intros F. apply (@nl_use _ _ _ _ _ _ _ X); [rewrite !skipn_length; lia|]. now apply firstn_after. }
  destruct (dec_idle D s1) eqn:id; (split; [lia|]); intros F; rewrite (Y F), id; auto.
Qed.
Lemma length_nl : no_lookahead (length_decoder D).
Proof.
  intros fuel [s ex rm] buf buf' e s' n X L F. cbn in *. unfold length_decode in *.
  cbn [ln_inner ln_expected ln_remaining] in *. cbv zeta in *. unfold len in *. rewrite L.
  set (limit := N.min (N.of_nat (length buf)) rm) in *.
  match type of X with context [dec_decode D fuel s ?b ?q] => destruct (dec_decode D fuel s b q) as [s1 r] eqn:Y end.
  assert (G : r = Ok n ->
     dec_decode D fuel s (firstn (N.to_nat limit) buf') (eos_with_remaining (Finite (rm - limit))) = (s1, Ok n)).
  { intros ->. apply (@nl_use _ _ _ _ _ _ _ Y); [rewrite !firstn_length; lia|]. now apply firstn_within. }
  assert (R : r = Ok n).
  { destruct (bc_to_u64 _) as [q|]; [destruct (u64_add _ _); [destruct (_ <=? _)%N; [|discriminate]|discriminate]|];
      destruct r; try discriminate; destruct (u64_sub _ _); try discriminate; injection X as _ <-; auto. }
  rewrite (G R). subst r. exact X.
Qed.
Lemma max_nl : no_lookahead (max_decoder D).
Proof.
  intros fuel [s c mx] buf buf' e s' n X L F. cbn in *. unfold max_decode in *. cbn [mx_inner mx_consumed mx_max] in *.
  assert (C : max_check (mkMax s c mx) buf' e = max_check (mkMax s c mx) buf e).
  { unfold max_check, len. now rewrite L. }
  rewrite C. destruct (max_check _ _ _); try discriminate.
  destruct (dec_decode D fuel s buf e) as [s1 r] eqn:Y.
  assert (R : r = Ok n).
  { destruct r; try discriminate; destruct (u64_add _ _); try discriminate; injection X as _ <-; auto. }
  subst r. rewrite (@nl_use _ _ _ _ _ _ _ Y L F). exact X.
Qed.
Lemma omit_nl : no_lookahead (omit_decoder D).
Proof.
  intros fuel [s b] buf buf' e s' n X L F. cbn in *. destruct b; auto.
  destruct (dec_decode D fuel s buf e) as [s1 r] eqn:Y. injection X as <- ->. now rewrite (@nl_use _ _ _ _ _ _ _ Y L F).
Qed.
Lemma peek_nl : no_lookahead (peek_decoder D).
Proof.
  intros fuel [s o] buf buf' e s' n X L F. cbn in *. unfold peek_decode in *. cbn [pk_item pk_inner] in *.
  destruct o; auto. destruct (dec_decode D fuel s buf e) as [s1 r] eqn:Y.
  assert (R : r = Ok n).
  { destruct r; try discriminate. destruct (dec_idle D s1); [destruct (dec_finish D s1) as [s2 [i| | |]]|]; try discriminate;
      injection X as _ <-; auto. }
  subst r. rewrite (@nl_use _ _ _ _ _ _ _ Y L F). exact X.
Qed.
Lemma maybe_nl : no_lookahead (maybe_decoder D).
Proof.
  intros fuel [s b] buf buf' e s' n X L F. cbn in *. unfold maybe_decode in *. cbn [my_inner my_started] in *.
  rewrite L. cbv zeta in *. match type of X with context [dec_decode D fuel s buf ?q] => set (e' := q) in * end.
  destruct (dec_decode D fuel s buf e') as [s1 r] eqn:Y.
  assert (R : r = Ok n) by (destruct r; try discriminate; injection X as _ <-; auto).
  subst r. rewrite (@nl_use _ _ _ _ _ _ _ Y L F). exact X.
Qed.
Lemma slice_nl : no_lookahead (slice_decoder D).
Proof.
  intros fuel [s c] buf buf' e s' n X L F. cbn in *. unfold slice_decode in *. cbn [sl_inner sl_consumable] in *.
  cbv zeta in *. unfold len in *. rewrite L. destruct (eos_back _ _) as [e'|]; [|discriminate].
  set (lim := N.to_nat _) in *.
  destruct (dec_decode D fuel s (firstn lim buf) e') as [s1 r] eqn:Y.
  assert (R : r = Ok n).
  { destruct r; try discriminate; destruct (u64_sub _ _); try discriminate; injection X as _ <-; auto. }
  subst r. rewrite (@nl_use _ _ _ (firstn lim buf') _ _ _ Y); [exact X|rewrite !firstn_length; lia|]. now apply firstn_within.
Qed.
Lemma map_err_nl : forall g, no_lookahead (map_err_decoder D g).
Proof.
  intros g fuel s buf buf' e s' n X L F. cbn in *. destruct (dec_decode D fuel s buf e) as [s1 r] eqn:Y.
  assert (R : r = Ok n) by (destruct r; try discriminate; injection X as _ <-; auto).
  subst r. rewrite (@nl_use _ _ _ _ _ _ _ Y L F). exact X.
Qed.
Lemma collect_loop_nl : forall m fuel s items off buf buf' e s' n, length buf' = length buf ->
  collect_loop D m fuel s items off buf e = (s', Ok n) ->
  off <= n /\ (firstn n buf' = firstn n buf -> collect_loop D m fuel s items off buf' e = (s', Ok n)).
Proof.
  induction m as [|m IH]; intros fuel s items off buf buf' e s' n L X; cbn [collect_loop] in *; rewrite L;
    destruct (off <? length buf); try discriminate; try (injection X as <- <-; split; auto; fail).
  pose proof (try_nl fuel s off buf buf' e L) as T.
  destruct (try_decode D fuel s off buf e) as [t o|t [o| | |]]; try discriminate.
  - destruct T as [T1 T2]. destruct (dec_finish D t) as [u [i| | |]] eqn:Fi; try discriminate.
    destruct (IH _ _ _ _ _ _ _ _ _ L X) as [A B]. split; [lia|]. intros F.
    rewrite T2 by (eapply firstn_sub; [|exact F]; auto). rewrite Fi. auto.
  - injection X as <- <-. destruct T as [T1 T2]. split; auto. intros F. now rewrite T2.
Qed.
Lemma collect_nl : no_lookahead (collect_decoder D).
Proof.
  intros fuel [s it eos] buf buf' e s' n X L F. cbn in *. destruct eos; auto.
  destruct (@collect_loop_nl _ _ _ _ _ _ _ _ _ _ L X) as [_ Y]. auto.
Qed.
Lemma collectn_loop_nl : forall rm fuel s items off buf buf' e s' n, length buf' = length buf ->
  collectn_loop D fuel rm s items off buf e = (s', Ok n) ->
  off <= n /\ (firstn n buf' = firstn n buf -> collectn_loop D fuel rm s items off buf' e = (s', Ok n)).
Proof.
  induction rm as [|rm IH]; intros fuel s items off buf buf' e s' n L X; cbn [collectn_loop] in *.
  { destruct (negb _ && _); [discriminate|]. injection X as <- <-. auto. }
  rewrite L. destruct (off <? length buf).
  2: { destruct (negb _ && _); [discriminate|]. injection X as <- <-. auto. }
  pose proof (try_nl fuel s off buf buf' e L) as T.
  destruct (try_decode D fuel s off buf e) as [t o|t [o| | |]]; try discriminate.
  - destruct T as [T1 T2]. destruct (dec_finish D t) as [u [i| | |]] eqn:Fi; try discriminate.
    destruct (IH _ _ _ _ _ _ _ _ _ L X) as [A B]. split; [lia|]. intros F.
    rewrite T2 by (eapply firstn_sub; [|exact F]; auto). rewrite Fi. auto.
  - injection X as <- <-. destruct T as [T1 T2]. split; auto. intros F. now rewrite T2.
Qed.
Lemma collectn_nl : no_lookahead (collectn_decoder D).
Proof.
  intros fuel [s rm it] buf buf' e s' n X L F. cbn in *.
  destruct (@collectn_loop_nl _ _ _ _ _ _ _ _ _ _ L X) as [_ Y]. auto.
Qed.
End One.
Section Two.
Context {S0 S1 I0 I1 : Type} (D0 : Decoder S0 I0) (D1 : Decoder S1 I1)
  (H0 : no_lookahead D0) (H1 : no_lookahead D1).
Lemma pair_nl : no_lookahead (tuple2_decoder D0 D1).
Proof.
  intros fuel [s0 s1] buf buf' e s' n.
  unfold tuple2_decoder, tuple_of_dec_parts, dec_decode, dec_parts2, dp_snoc, dp_decode, dp_one. cbn [fst snd].
  intros X L F. pose proof (try_nl H0 fuel s0 0 buf buf' e L) as T.
  destruct (try_decode D0 fuel s0 0 buf e) as [t0 o0|t0 [o| | |]]; try discriminate.
  - destruct T as [T1 T2]. pose proof (try_nl H1 fuel s1 o0 buf buf' e L) as U.
    destruct (try_decode D1 fuel s1 o0 buf e) as [t1 o1|t1 [o1| | |]]; try discriminate;
      injection X as <- <-; destruct U as [U1 U2]; rewrite T2, U2; auto; eapply firstn_sub; [|exact F| |exact F]; auto.
  - injection X as <- <-. destruct T as [T1 T2]. now rewrite T2.
Qed.
Lemma and_then_nl : forall g, no_lookahead (and_then_decoder D0 D1 g).
Proof.
  assert (B : forall fuel s0 s1 off buf buf' e s' n, length buf' = length buf ->
     and_then_body (S0 := S0) D1 fuel s0 s1 off buf e = (s', Ok n) ->
     off <= n /\ (firstn n buf' = firstn n buf -> and_then_body (S0 := S0) D1 fuel s0 s1 off buf' e = (s', Ok n))).
  { intros fuel s0 s1 off buf buf' e s' n L X. unfold and_then_body in *.
    pose proof (try_nl H1 fuel s1 off buf buf' e L) as T.
    destruct (try_decode D1 fuel s1 off buf e) as [t1 o1|t1 [o1| | |]]; try discriminate;
      injection X as <- <-; destruct T as [T1 T2]; split; auto; intros F; now rewrite T2. }
  intros g fuel [s0 [s1|]] buf buf' e s' n X L F; cbn in *; unfold and_then_decode in *; cbn [at_inner0 at_inner1] in *.
  { destruct (B _ _ _ _ _ _ _ _ _ L X); auto. }
  pose proof (try_nl H0 fuel s0 0 buf buf' e L) as T.
  destruct (try_decode D0 fuel s0 0 buf e) as [t0 o0|t0 [o| | |]]; try discriminate.
  - destruct T as [T1 T2]. destruct (dec_finish D0 t0) as [u [i| | |]] eqn:Fi; try discriminate.
    destruct (B _ _ _ _ _ _ _ _ _ L X) as [K1 K2].
    rewrite T2 by (eapply firstn_sub; [|exact F]; auto). rewrite Fi. auto.
  - injection X as <- <-. destruct T as [T1 T2]. now rewrite T2.
Qed.
End Two.
Theorem sequential_nl : forall S I (D : Decoder S I), sequential D -> no_lookahead D.
Proof.
  induction 1; auto using copy_nl, bytes_nl, rem_nl, pad_nl, mono_nl, map_err_nl, and_then_nl, omit_nl, collect_nl,
    collectn_nl, length_nl, max_nl, slice_nl, peek_nl, maybe_nl, pair_nl;
    try (eapply nl_sub; [|eassumption]; reflexivity).
  - intros fuel s buf buf' e s' n X _ _. exact X.
  - eapply nl_sub; [|apply (copy_nl (vec_box))]. reflexivity.
  - intros fuel s buf buf' e s' n. destruct (tuple_snoc_eq D1 H) as (A & _). rewrite <- !A.
    now apply pair_nl.
Qed.

(** ** Encoders *)
(** [buf], [buf2] have become [b], [b2]: the first [n] bytes are the same, the others untouched. *)
Lemma wo_write_only : forall S I (E : Encoder S I), wo E -> write_only E.
Proof.
  intros S I E H fuel s buf buf2 e s' buf' r X L. destruct (H fuel s buf buf2 e L) as (s1 & b & b2 & r1 & X1 & Y & L1 & L2 & A).
  rewrite X1 in X. injection X as -> -> ->. exists b2. split; auto. intros n ->.
  destruct (A n eq_refl) as (A1 & A2 & A3 & A4).
  split; [rewrite <- A3|rewrite <- A2, <- A4]; symmetry; apply firstn_skipn.
Qed.
Lemma wo_use : forall S I (E : Encoder S I), wo E -> forall fuel s buf buf2 e, length buf2 = length buf ->
  exists s' b b2 r, enc_encode E fuel s buf e = (s', b, r) /\ enc_encode E fuel s buf2 e = (s', b2, r) /\
    length b = length buf /\ length b2 = length buf /\ forall n, r = Ok n -> agree n buf buf2 b b2.
Proof. intros S I E H. exact H. Qed.
Lemma wo_sub : forall S I J (E : Encoder S I) (E' : Encoder S J),
  (forall fuel s buf e, enc_encode E' fuel s buf e = enc_encode E fuel s buf e) -> wo E -> wo E'.
Proof. intros S I J E E' A H fuel s buf buf2 e L. rewrite !A. now apply H. Qed.
Lemma overwrite_agree : forall buf buf2 src n, n = length src -> n <= length buf -> length buf2 = length buf ->
  agree n buf buf2 (overwrite buf 0 src) (overwrite buf2 0 src).
Proof.
  intros buf buf2 src n -> L L2. unfold agree, overwrite. cbn [firstn app Nat.add]. split; auto.
  rewrite !firstn_app_exact, !skipn_app_exact. auto.
Qed.
Lemma agree_zero : forall buf buf2, agree 0 buf buf2 buf buf2.
Proof. intros. unfold agree. cbn. split; auto. lia. Qed.
Lemma agree_after : forall off n buf buf2 b b2, off <= length buf -> length buf2 = length buf ->
  firstn off buf2 = firstn off buf -> agree n (skipn off buf) (skipn off buf2) b b2 ->
  agree (off + n) buf buf2 (firstn off buf ++ b) (firstn off buf2 ++ b2).
Proof.
  intros off n buf buf2 b b2 L L2 F (A1 & A2 & A3 & A4). unfold agree.
  rewrite !firstn_app, !skipn_app, !firstn_firstn, !firstn_length, !(Nat.min_r (off + n)) by lia.
  rewrite !(Nat.min_l off) by lia. replace (off + n - off) with n by lia.
  rewrite !skipn_firstn_comm. replace (off - (off + n)) with 0 by lia. cbn [firstn app].
  rewrite !skipn_skipn in A3, A4. rewrite (Nat.add_comm off n).
  rewrite skipn_length in A1. split; [lia|]. rewrite F, A2. auto.
Qed.
Lemma agree_within : forall lim n buf buf2 b b2, length buf2 = length buf ->
  length b = length (firstn lim buf) -> length b2 = length (firstn lim buf) ->
  agree n (firstn lim buf) (firstn lim buf2) b b2 ->
  agree n buf buf2 (b ++ skipn lim buf) (b2 ++ skipn lim buf2).
Proof.
  intros lim n buf buf2 b b2 L LB LB2 (A1 & A2 & A3 & A4). unfold agree.
  rewrite firstn_length in *. split; [lia|]. rewrite !firstn_app, !skipn_app.
  replace (n - length b) with 0 by lia. replace (n - length b2) with 0 by lia. cbn [firstn skipn].
  rewrite !app_nil_r. split; auto. rewrite A3, A4. split.
  - rewrite <- (firstn_skipn lim buf) at 3. rewrite skipn_app, firstn_length.
    replace (n - Nat.min lim (length buf)) with 0 by lia. reflexivity.
  - rewrite <- (firstn_skipn lim buf2) at 3. rewrite skipn_app, firstn_length.
    replace (n - Nat.min lim (length buf2)) with 0 by lia. reflexivity.
Qed.
Lemma agree_trans : forall o1 o2 buf buf2 b b2 c c2, o1 <= o2 -> length b = length buf ->
  agree o1 buf buf2 b b2 -> agree o2 b b2 c c2 -> agree o2 buf buf2 c c2.
Proof.
  intros o1 o2 buf buf2 b b2 c c2 O L (A1 & A2 & A3 & A4) (B1 & B2 & B3 & B4).
  assert (G : forall x y : list byte, skipn o1 x = skipn o1 y -> skipn o2 x = skipn o2 y).
  { intros x y X. replace o2 with (o2 - o1 + o1) by lia. rewrite <- !skipn_skipn. now rewrite X. }
  split; [lia|]. split; auto. split; [rewrite B3|rewrite B4]; auto.
Qed.
Lemma bytes_wo : forall B (BX : ByteBox B), wo (bytes_encoder BX).
Proof.
  intros B BX fuel [[b|] off] buf buf2 e L; cbn; unfold bytes_encode; cbn.
  2: { do 4 eexists. split; [reflexivity|]. split; [reflexivity|]. split; auto. split; auto. intros n [= <-]. apply agree_zero. }
  unfold usize_sub. destruct (Nat.leb_spec off (length (bx_ref BX b))).
  2: { do 4 eexists. split; [reflexivity|]. split; [reflexivity|]. split; auto. split; auto. discriminate. }
  rewrite L. set (k := Nat.min (length buf) (length (bx_ref BX b) - off)).
  set (src := firstn k (skipn off (bx_ref BX b))).
  assert (LS : length src = k) by (unfold src; rewrite firstn_length, skipn_length; lia).
  assert (LO : length (overwrite buf 0 src) = length buf) by (apply overwrite_length; lia).
  assert (LO2 : length (overwrite buf2 0 src) = length buf) by (rewrite overwrite_length; lia).
  assert (AG : agree k buf buf2 (overwrite buf 0 src) (overwrite buf2 0 src)) by (apply overwrite_agree; auto; lia).
  destruct (_ =? _); [|destruct (is_reached e)]; do 4 eexists; (split; [reflexivity|]); (split; [reflexivity|]);
    (split; [exact LO|]); (split; [exact LO2|]); intros n X; inversion X; subst; auto.
Qed.
Lemma mono_wo : forall I (f : MonoEncode I), wo (mono_encoder f).
Proof.
  intros I f fuel [o b] buf buf2 e L. cbn. unfold mono_encode; cbn. destruct o as [i|].
  2: { destruct (@bytes_wo _ vec_box fuel b buf buf2 e L) as (s' & b1 & b2 & r & X1 & X2 & L1 & L2 & A).
       cbn in X1, X2. rewrite X1, X2. do 4 eexists. split; [reflexivity|]. split; [reflexivity|]. auto. }
  destruct (f i) as [chunks err]. rewrite L.
  pose proof (wc_fold chunks (mkWC [] (length buf) []) eq_refl) as W. cbn [wc_a wc_b wc_room app] in W. cbv zeta in W.
  set (w := fold_left _ chunks _) in *. destruct W as [WA WB].
  assert (LA : length (wc_a w) <= length buf) by (rewrite WA, firstn_length; lia).
  assert (LO : length (overwrite buf 0 (wc_a w)) = length buf) by (apply overwrite_length; lia).
  assert (LO2 : length (overwrite buf2 0 (wc_a w)) = length buf) by (rewrite overwrite_length; lia).
  assert (AG : agree (length (wc_a w)) buf buf2 (overwrite buf 0 (wc_a w)) (overwrite buf2 0 (wc_a w)))
    by (apply overwrite_agree; auto).
  assert (FULL : wc_b w <> [] -> length (wc_a w) = length buf).
  { rewrite WB, WA. intros NE. rewrite firstn_length. destruct (le_lt_dec (length (concat chunks)) (length buf)); [|lia].
    exfalso. apply NE. apply skipn_all2. auto. }
  destruct err; [|destruct (wc_b w) as [|x l]; [|rewrite FULL in AG by discriminate; destruct (bytes_start b (x :: l)) as [b' [u| | |]]]];
    do 4 eexists; (split; [reflexivity|]); (split; [reflexivity|]);
    (split; [exact LO|]); (split; [exact LO2|]); intros n X; inversion X; subst; auto.
Qed.
Lemma pad_wo : wo pad_encoder.
Proof.
  intros fuel [x|] buf buf2 e L; cbn.
  - set (c := map (fun _ => x) buf). set (c2 := map (fun _ => x) buf2).
    assert (X : c2 = c).
    { unfold c, c2. clear - L. revert buf2 L. induction buf as [|y buf IH]; intros [|z buf2] L; cbn in *; try discriminate; auto.
      f_equal. apply IH. lia. }
    assert (LC : length c = length buf) by apply map_length.
    rewrite X, L. do 4 eexists. split; [reflexivity|]. split; [reflexivity|]. split; auto. split; auto.
    intros n [= <-]. unfold agree. split; auto. split; auto. rewrite !skipn_all2 by lia. auto.
  - do 4 eexists. split; [reflexivity|]. split; [reflexivity|]. split; auto. split; auto.
    intros n [= <-]. apply agree_zero.
Qed.
Lemma null_wo : wo null_encoder.
Proof.
  intros fuel s buf buf2 e L. cbn. do 4 eexists. split; [reflexivity|]. split; [reflexivity|]. split; auto. split; auto.
  intros n [= <-]. apply agree_zero.
Qed.

Section EncOne.
Context {S I : Type} (E : Encoder S I) (HE : wo E).
Lemma etry_wo : forall fuel s off buf buf2 e, off <= length buf -> length buf2 = length buf ->
  firstn off buf2 = firstn off buf ->
  exists t b b2, try_encode E fuel s off buf e = (t, b) /\ try_encode E fuel s off buf2 e = (t, b2) /\
    length b = length buf /\ length b2 = length buf /\
    forall o, (exists s', t = TGo s' o \/ t = TRet s' (Ok o)) -> off <= o /\ agree o buf buf2 b b2.
Proof.
  intros fuel s off buf buf2 e LO L F. unfold try_encode. destruct (enc_idle E s).
  { do 3 eexists. split; [reflexivity|]. split; [reflexivity|]. split; auto. split; auto.
    intros o (s' & [X|X]); inversion X; subst. split; auto. unfold agree. auto. }
  unfold slice_from. rewrite L. destruct (Nat.leb_spec off (length buf)); [|lia].
  destruct (@wo_use _ _ E HE fuel s (skipn off buf) (skipn off buf2) e) as (s1 & b & b2 & r & X1 & X2 & L1 & L2 & A);
    [rewrite !skipn_length; lia|]. rewrite X1, X2. rewrite !skipn_length in *.
  assert (G1 : length (firstn off buf ++ b) = length buf) by (rewrite app_length, firstn_length; lia).
  assert (G2 : length (firstn off buf2 ++ b2) = length buf) by (rewrite app_length, firstn_length; lia).
  destruct r as [n| | |];
    [destruct (enc_idle E s1)|..]; do 3 eexists; (split; [reflexivity|]); (split; [reflexivity|]);
    (split; [exact G1|]); (split; [exact G2|]); intros o (s' & [X|X]); inversion X; subst; (split; [lia|]);
    apply agree_after; auto.
Qed.
Lemma length_wo : wo (length_encoder E).
Proof.
  intros fuel [s ex rm] buf buf2 e L. cbn. unfold length_encode; cbn [ln_inner ln_expected ln_remaining]. unfold len. rewrite L.
  destruct (_ && _). { do 4 eexists. split; [reflexivity|]. split; [reflexivity|]. split; auto. split; auto. discriminate. }
  match goal with |- context [firstn ?x buf] => set (lim := x) end.
  match goal with |- context [enc_encode E fuel s (firstn lim buf) ?q] => set (e' := q) end.
  destruct (@wo_use _ _ E HE fuel s (firstn lim buf) (firstn lim buf2) e') as (s1 & b & b2 & r & X1 & X2 & L1 & L2 & A);
    [rewrite !firstn_length; lia|]. rewrite X1, X2.
  assert (G1 : length (b ++ skipn lim buf) = length buf) by (rewrite app_length, skipn_length, L1, firstn_length; lia).
  assert (G2 : length (b2 ++ skipn lim buf2) = length buf) by (rewrite app_length, skipn_length, L2, firstn_length; lia).
  destruct r as [n| | |]; [destruct (u64_sub _ _); [destruct (_ && _)|]|..];
    do 4 eexists; (split; [reflexivity|]); (split; [reflexivity|]);
    (split; [exact G1|]); (split; [exact G2|]); intros o X; inversion X; subst; apply agree_within; auto.
Qed.
Lemma max_wo : wo (max_encoder E).
Proof.
  intros fuel [s c mx] buf buf2 e L. cbn. unfold max_encode; cbn [mx_inner mx_consumed mx_max].
  destruct (@wo_use _ _ E HE fuel s buf buf2 e L) as (s1 & b & b2 & r & X1 & X2 & L1 & L2 & A). rewrite X1, X2.
  destruct r as [n| | |]; [destruct (u64_add _ _); [destruct (_ <=? _)%N|]|..];
    do 4 eexists; (split; [reflexivity|]); (split; [reflexivity|]);
    (split; [exact L1|]); (split; [exact L2|]); intros o X; inversion X; subst; auto.
Qed.
Lemma slice_wo : wo (slice_encoder E).
Proof.
  intros fuel [s c] buf buf2 e L. cbn. unfold slice_encode; cbn [sl_inner sl_consumable]. unfold len. rewrite L.
  set (lim := N.to_nat _). destruct (eos_back _ _) as [e'|].
  2: { do 4 eexists. split; [reflexivity|]. split; [reflexivity|]. split; auto. split; auto. discriminate. }
  destruct (@wo_use _ _ E HE fuel s (firstn lim buf) (firstn lim buf2) e') as (s1 & b & b2 & r & X1 & X2 & L1 & L2 & A);
    [rewrite !firstn_length; lia|]. rewrite X1, X2.
  assert (G1 : length (b ++ skipn lim buf) = length buf) by (rewrite app_length, skipn_length, L1, firstn_length; lia).
  assert (G2 : length (b2 ++ skipn lim buf2) = length buf) by (rewrite app_length, skipn_length, L2, firstn_length; lia).
  destruct r as [n| | |]; [destruct (u64_sub _ _)|..];
    do 4 eexists; (split; [reflexivity|]); (split; [reflexivity|]);
    (split; [exact G1|]); (split; [exact G2|]); intros o X; inversion X; subst; apply agree_within; auto.
Qed.
Lemma last_wo : wo (last_encoder E).
Proof.
  intros fuel [s o] buf buf2 e L. cbn. unfold last_encode; cbn [la_inner la_item].
  assert (G : forall t it, exists s' b b2 r,
     (let '(s', buf', r) := enc_encode E fuel t buf e in (@mkLast S I s' it, buf', r)) = (s', b, r) /\
     (let '(s', buf', r) := enc_encode E fuel t buf2 e in (@mkLast S I s' it, buf', r)) = (s', b2, r) /\
     length b = length buf /\ length b2 = length buf /\ forall n, r = Ok n -> agree n buf buf2 b b2).
  { intros t it. destruct (@wo_use _ _ E HE fuel t buf buf2 e L) as (s1 & b & b2 & r & X1 & X2 & L1 & L2 & A). rewrite X1, X2.
    do 4 eexists; (split; [reflexivity|]); (split; [reflexivity|]). auto. }
  destruct (enc_idle E s); [|apply G]. destruct o as [i|]; [|apply G].
  destruct (enc_start E fuel s i) as [s1 [u| | |]]; [apply G|..];
    do 4 eexists; (split; [reflexivity|]); (split; [reflexivity|]); (split; [auto|]); (split; [auto|]); discriminate.
Qed.
Lemma map_err_wo : forall g, wo (map_err_encoder E g).
Proof.
  intros g fuel s buf buf2 e L. cbn. destruct (@wo_use _ _ E HE fuel s buf buf2 e L) as (s1 & b & b2 & r & X1 & X2 & L1 & L2 & A). rewrite X1, X2.
  do 4 eexists; (split; [reflexivity|]); (split; [reflexivity|]). split; auto. split; auto.
  destruct r; cbn; intros o X; inversion X; subst; auto.
Qed.
Lemma repeat_loop_wo : forall m fuel st off buf buf2 e, off <= length buf -> length buf2 = length buf ->
  firstn off buf2 = firstn off buf ->
  exists s' b b2 r, repeat_loop E m fuel st off buf e = (s', b, r) /\ repeat_loop E m fuel st off buf2 e = (s', b2, r) /\
    length b = length buf /\ length b2 = length buf /\ forall n, r = Ok n -> off <= n /\ agree n buf buf2 b b2.
Proof.
  induction m as [|m IH]; intros fuel [s its] off buf buf2 e LO L F; cbn [repeat_loop rp_inner rp_items].
  { do 4 eexists; (split; [reflexivity|]); (split; [reflexivity|]). split; auto. split; auto. discriminate. }
  set (items := match its with Some l => l | None => [] end).
  assert (PF : forall s1 rest q, repeat_pull E fuel s items = PullFail s1 rest q -> forall k, q <> Ok k).
  { clear. revert s. induction items as [|i items IHi]; intros s s1 rest q; cbn [repeat_pull]; destruct (enc_idle E s); try discriminate.
    destruct (enc_start E fuel s i) as [s2 [u| | |]]; eauto; intros [= _ _ <-]; discriminate. }
  destruct (repeat_pull E fuel s items) as [s1 rest|s1|s1 rest q] eqn:P.
  - unfold slice_from. rewrite L. destruct (Nat.leb_spec off (length buf)); [|lia].
    destruct (@wo_use _ _ E HE fuel s1 (skipn off buf) (skipn off buf2) e) as (s2 & b & b2 & r & X1 & X2 & L1 & L2 & A);
      [rewrite !skipn_length; lia|]. rewrite X1, X2. rewrite !skipn_length in *.
    assert (G1 : length (firstn off buf ++ b) = length buf) by (rewrite app_length, firstn_length; lia).
    assert (G2 : length (firstn off buf2 ++ b2) = length buf) by (rewrite app_length, firstn_length; lia).
    destruct r as [n| | |];
      try (do 4 eexists; (split; [reflexivity|]); (split; [reflexivity|]); split; auto; split; auto; discriminate).
    assert (AG : agree (off + n) buf buf2 (firstn off buf ++ b) (firstn off buf2 ++ b2)) by (apply agree_after; auto).
    destruct (n =? 0).
    + do 4 eexists; (split; [reflexivity|]); (split; [reflexivity|]). split; auto. split; auto.
      intros k [= <-]. split; auto. lia.
    + destruct (IH fuel (mkRepeat s2 match its with Some _ => Some rest | None => None end) (off + n)
                  (firstn off buf ++ b) (firstn off buf2 ++ b2) e) as (s3 & c & c2 & r & Y1 & Y2 & M1 & M2 & B).
      { destruct AG. lia. } { lia. } { apply AG. }
      rewrite Y1, Y2. exists s3, c, c2, r. split; auto. split; auto. split; [lia|]. split; [lia|].
      intros k R. destruct (B k R) as [B1 B2]. split; [lia|]. exact (@agree_trans _ _ _ _ _ _ _ _ B1 G1 AG B2).
  - do 4 eexists; (split; [reflexivity|]); (split; [reflexivity|]). split; auto. split; auto.
    intros k [= <-]. split; auto. unfold agree. auto.
  - do 4 eexists; (split; [reflexivity|]); (split; [reflexivity|]). split; auto. split; auto.
    intros k X. exfalso. eapply PF; eauto.
Qed.
Lemma repeat_wo : wo (repeat_encoder E).
Proof.
  intros fuel st buf buf2 e L. cbn.
  destruct (@repeat_loop_wo fuel fuel st 0 buf buf2 e) as (s' & b & b2 & r & X1 & X2 & L1 & L2 & A); auto; [lia|].
  exists s', b, b2, r. split; auto. split; auto. split; auto. split; auto. intros n R. apply (A n R).
Qed.
Lemma pre_wo : wo (pre_encoder E).
Proof.
  intros fuel [s b0] buf buf2 e L. cbn.
  destruct (@bytes_wo _ vec_box fuel b0 buf buf2 e L) as (s' & b1 & b2 & r & X1 & X2 & L1 & L2 & A).
  cbn in X1, X2. rewrite X1, X2. do 4 eexists. split; [reflexivity|]. split; [reflexivity|]. auto.
Qed.
End EncOne.
Section EncTwo.
Context {S0 S1 I0 I1 : Type} (E0 : Encoder S0 I0) (E1 : Encoder S1 I1) (H0 : wo E0) (H1 : wo E1).
Lemma pair_wo : wo (tuple2_encoder E0 E1).
Proof.
  intros fuel [s0 s1] buf buf2 e L.
  unfold tuple2_encoder, tuple_of_enc_parts, enc_encode, enc_parts2, ep_snoc, ep_encode, ep_one. cbn [fst snd].
  destruct (@etry_wo _ _ _ H0 fuel s0 0 buf buf2 e) as (t & b & b2 & X1 & X2 & L1 & L2 & A); auto; [lia|].
  rewrite X1, X2. destruct t as [t0 o0|t0 r0].
  - destruct (A o0) as [_ AG]; [eauto|].
    destruct (@etry_wo _ _ _ H1 fuel s1 o0 b b2 e) as (t & c & c2 & Y1 & Y2 & M1 & M2 & B).
    { destruct AG. lia. } { lia. } { apply AG. }
    rewrite Y1, Y2. destruct t as [t1 o1|t1 r1]; do 4 eexists; (split; [reflexivity|]); (split; [reflexivity|]);
      (split; [lia|]); (split; [lia|]); intros n X; inversion X; subst.
    + destruct (B n) as [B1 B2]; [eauto|]. exact (@agree_trans _ _ _ _ _ _ _ _ B1 L1 AG B2).
    + destruct (B n) as [B1 B2]; [eauto|]. exact (@agree_trans _ _ _ _ _ _ _ _ B1 L1 AG B2).
  - do 4 eexists; (split; [reflexivity|]); (split; [reflexivity|]). split; auto. split; auto.
    intros n ->. destruct (A n); eauto.
Qed.
End EncTwo.
Theorem composed_enc_wo : forall S I (E : Encoder S I) B l Item Conf Init,
  composed_enc E B l Item Conf Init -> wo E.
Proof.
  induction 1; auto using bytes_wo, null_wo, pad_wo, mono_wo, map_err_wo, repeat_wo, length_wo, max_wo, pre_wo, slice_wo,
    last_wo, pair_wo; try (eapply wo_sub; [|eassumption]; reflexivity).
  - eapply wo_sub; [|apply (bytes_wo vec_box)]. reflexivity.
  - match goal with H : eparts_ok P |- _ => destruct (etuple_snoc_sim E1 H) as (A & _) end.
    intros fuel s buf buf2 e L. rewrite <- !A. now apply pair_wo.
Qed.
