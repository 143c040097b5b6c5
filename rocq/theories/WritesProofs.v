(** * Encoders write nothing but the encoding of their item: proofs. *)
From Coq Require Import Lia ZifyBool ZifyNat ZifyN.
From Verif Require Export Writes UniverseProofs.
Set Implicit Arguments.

(** ** The contract

    [R s ow]: from [s] the bytes [w] come out ([ow = Some w]), or the encoder never becomes idle
    without an error ([ow = None]). *)
Definition adv (n : nat) (ow : option (list byte)) : option (list byte) := option_map (skipn n) ow.
Definition oapp (a b : option (list byte)) : option (list byte) :=
  match a, b with Some x, Some y => Some (x ++ y) | _, _ => None end.
Definition agrees (n : nat) (buf : list byte) (ow : option (list byte)) : Prop :=
  match ow with Some w => n <= length w /\ firstn n buf = firstn n w | None => True end.

Record wsound {S I} (E : Encoder S I) (enc : I -> option (list byte)) (again : bool)
    (strict : Prop) (P : S -> Prop) (R : S -> option (list byte) -> Prop) : Prop := {
  ws_start : forall s i fuel s' u, P s -> enc_start E fuel s i = (s', Ok u) -> R s' (enc i);
  ws_idle : forall s ow, R s ow -> enc_idle E s = true -> ow = Some [];
  ws_step : forall s ow fuel buf e s' buf' n, R s ow ->
    enc_encode E fuel s buf e = (s', buf', Ok n) ->
    length buf' = length buf /\ n <= length buf /\ R s' (adv n ow) /\ agrees n buf' ow;
  ws_req : forall s w n, R s (Some w) -> enc_req E s = Ok (Finite n) -> n = len w;
  ws_rest : again = true ->
    (forall s, P s -> R s (Some []) /\ enc_idle E s = true) /\
    (forall s ow, R s ow -> enc_idle E s = true -> P s);
  ws_strict : strict -> forall s ow fuel buf e s' buf' n, R s ow ->
    enc_encode E fuel s buf e = (s', buf', Ok n) ->
    (is_reached e = true -> enc_idle E s' = true) /\
    (forall w, ow = Some w -> n = length w -> enc_idle E s' = true)
}.
Arguments ws_start {S I E enc again strict P R} _ {s i fuel s' u} _ _.
Arguments ws_idle {S I E enc again strict P R} _ {s ow} _ _.
Arguments ws_step {S I E enc again strict P R} _ {s ow fuel buf e s' buf' n} _ _.
Arguments ws_req {S I E enc again strict P R} _ {s w n} _ _.
Arguments ws_rest {S I E enc again strict P R} _ _.
Arguments ws_strict {S I E enc again strict P R} _ _ {s ow fuel buf e s' buf' n} _ _.
Definition wok {S I} (E : Encoder S I) enc again strict (s0 : S) : Prop :=
  exists P R, wsound E enc again strict P R /\ P s0.

Lemma adv_adv : forall n m ow, adv n (adv m ow) = adv (m + n) ow.
Proof. intros n m [w|]; cbn; auto. now rewrite skipn_skipn, Nat.add_comm. Qed.
Lemma adv_0 : forall ow, adv 0 ow = ow.
Proof. intros [w|]; reflexivity. Qed.
Lemma oapp_nil : forall ow, oapp (Some []) ow = ow.
Proof. intros [w|]; reflexivity. Qed.
Lemma oapp_nil_r : forall ow, oapp ow (Some []) = ow.
Proof. intros [w|]; cbn; auto. now rewrite app_nil_r. Qed.
Lemma oapp_none : forall ow, oapp ow None = None.
Proof. intros [w|]; reflexivity. Qed.
Lemma adv_oapp : forall n buf a b, agrees n buf a -> adv n (oapp a b) = oapp (adv n a) b.
Proof.
  intros n buf [a|] [b|] H; cbn in *; auto. destruct H as [L _].
  rewrite skipn_app. replace (n - length a) with 0 by lia. reflexivity.
Qed.
Lemma agrees_oapp : forall n buf a b, agrees n buf a -> agrees n buf (oapp a b).
Proof.
  intros n buf [a|] [b|] H; cbn in *; auto. destruct H as [L H]. rewrite app_length. split; [lia|].
  rewrite firstn_app. replace (n - length a) with 0 by lia. cbn. now rewrite app_nil_r.
Qed.
(** Two pieces one after the other. *)
Lemma agrees_trans : forall n m buf b' ow,
  n <= length buf -> agrees n buf ow -> agrees m b' (adv n ow) ->
  agrees (n + m) (firstn n buf ++ b') ow.
Proof.
  intros n m buf b' [w|] L H K; cbn in *; auto. destruct H as [L1 H], K as [L2 K].
  rewrite skipn_length in L2. split; [lia|].
  rewrite firstn_app, firstn_firstn, firstn_length. replace (Nat.min (n + m) n) with n by lia.
  replace (n + m - Nat.min n (length buf)) with m by lia. rewrite H, K.
  rewrite <- (firstn_skipn n w) at 3. rewrite firstn_app, firstn_firstn, firstn_length.
  replace (Nat.min (n + m) n) with n by lia. f_equal. f_equal. lia.
Qed.

(** ** Primitives *)
Section Bytes.
  Context {B : Type} (BX : ByteBox B).
  Definition bytes_wR (st : BytesEnc B) (ow : option (list byte)) : Prop :=
    match be_bytes st with
    | None => ow = Some []
    | Some b => be_off st <= length (bx_ref BX b) /\ ow = Some (skipn (be_off st) (bx_ref BX b))
    end.
  Lemma bytes_wsound : wsound (bytes_encoder BX) (fun b => Some (bx_ref BX b)) true True
    (@bytes_eidle B) bytes_wR.
  Proof.
    constructor.
    - intros [[b|] off] i fuel s' u; cbn; [discriminate|]. intros _ [= <- _].
      split; cbn; auto. lia.
    - intros [[b|] off] ow H; cbn; [discriminate|]. intros _. exact H.
    - intros [[b|] off] ow fuel buf e s' buf' n H; cbn [enc_encode bytes_encoder];
        unfold bytes_encode; cbn [be_bytes be_off].
      + destruct H as (L & ->). cbn [be_bytes be_off] in *. rewrite usize_sub_ok by auto.
        set (size := Nat.min (length buf) (length (bx_ref BX b) - off)).
        assert (X : forall s0, (s0, overwrite buf 0 (firstn size (skipn off (bx_ref BX b))), Ok size)
                               = (s', buf', Ok n) -> bytes_wR s0 (adv size (Some (skipn off (bx_ref BX b)))) ->
          length buf' = length buf /\ n <= length buf /\ bytes_wR s' (adv n (Some (skipn off (bx_ref BX b)))) /\
          agrees n buf' (Some (skipn off (bx_ref BX b)))).
        { intros s0 [= <- <- <-] Hs. unfold overwrite. cbn [firstn app].
          assert (LS : length (firstn size (skipn off (bx_ref BX b))) = size).
          { rewrite firstn_length, skipn_length. unfold size. lia. }
          rewrite app_length, LS, skipn_length. cbn [agrees]. split; [unfold size; lia|].
          split; [unfold size; lia|]. split; auto. rewrite skipn_length. split; [unfold size; lia|].
          rewrite firstn_app, LS, Nat.sub_diag. cbn. rewrite app_nil_r, firstn_firstn.
          now rewrite Nat.min_id. }
        destruct (off + size =? length (bx_ref BX b)) eqn:Q.
        { intros H. apply (X _ H). red; cbn. rewrite skipn_skipn. rewrite skipn_all2 by lia. reflexivity. }
        destruct (is_reached e); [discriminate|]. intros H. apply (X _ H). red; cbn.
        split; [unfold size; lia|]. now rewrite skipn_skipn, Nat.add_comm.
      + intros [= <- <- <-]. red in H; cbn in H. subst ow. cbn. repeat split; auto; lia.
    - intros [[b|] off] w n H; unfold bytes_wR in H; cbn in *.
      + destruct H as (L & [= ->]). unfold bytes_enc_exact; cbn. rewrite usize_sub_ok by auto.
        intros [= <-]. unfold len. rewrite skipn_length. lia.
      + injection H as ->. intros [= <-]. reflexivity.
    - intros _. split.
      + intros [[b|] off] H; [discriminate H|]. split; reflexivity.
      + intros [[b|] off] ow H id; [discriminate id|]. reflexivity.
    - intros _ [[b|] off] ow fuel buf e s' buf' n H; cbn [enc_encode enc_idle bytes_encoder];
        unfold bytes_encode; cbn [be_bytes be_off].
      + destruct H as (L & ->). cbn [be_bytes be_off] in *. rewrite usize_sub_ok by auto.
        set (size := Nat.min (length buf) (length (bx_ref BX b) - off)).
        destruct (off + size =? length (bx_ref BX b)) eqn:Q.
        { intros [= <- _ _]. auto. }
        destruct (is_reached e); [discriminate|]. intros [= <- _ <-]. split; [discriminate|].
        intros w [= <-]. rewrite skipn_length. lia.
      + intros [= <- _ _]. auto.
  Qed.
End Bytes.
Lemma null_wsound : wsound null_encoder (fun _ => Some []) true True (fun _ => True)
  (fun _ ow => ow = Some []).
Proof.
  constructor; cbn; auto.
  - intros s ow fuel buf e s' buf' n -> [= <- <- <-]. cbn. repeat split; auto; lia.
  - intros s w n [= ->] [= <-]. reflexivity.
Qed.

(** Encoders with the same [encode], [is_idle] and requirement. *)
Lemma wsound_ext : forall S I I' (E : Encoder S I) (E' : Encoder S I') enc enc' again (st st' : Prop) P R,
  wsound E enc again st P R ->
  (forall s i fuel s' u, P s -> enc_start E' fuel s i = (s', Ok u) -> R s' (enc' i)) ->
  (forall fuel s buf e s' buf' n, enc_encode E' fuel s buf e = (s', buf', Ok n) ->
     enc_encode E fuel s buf e = (s', buf', Ok n)) ->
  (forall s, enc_req E' s = enc_req E s) ->
  (forall s, enc_idle E' s = enc_idle E s) -> (st' -> st) ->
  wsound E' enc' again st' P R.
Proof.
  intros S I I' E E' enc enc' again st st' P R [H1 H2 H3 H4 H5 H6] Es E1 E2 E3 St. constructor.
  - exact Es.
  - intros s ow r id. rewrite E3 in id. eauto.
  - intros s ow fuel buf e s' buf' n r X. apply E1 in X. eauto.
  - intros s w n r X. rewrite E2 in X. eauto.
  - intros Ag. destruct (H5 Ag) as [A B]. split.
    + intros s Ps. rewrite E3. auto.
    + intros s ow r id. rewrite E3 in id. eauto.
  - intros T s ow fuel buf e s' buf' n r X. apply E1 in X. rewrite E3.
    eapply H6; eauto.
Qed.

Lemma num_wsound : forall T (f : T -> list byte + ErrorKind),
  wsound (num_encoder f) (fun t => match f t with inl b => Some b | inr _ => None end) true True
    (@bytes_eidle (list byte)) (bytes_wR vec_box).
Proof.
  intros T f. eapply wsound_ext with (E := bytes_encoder vec_box); [apply bytes_wsound|..]; auto.
  intros s i fuel s' u Ps. cbn. destruct (f i) as [b|k]; [|discriminate].
  intros H. exact (ws_start (bytes_wsound vec_box) (fuel := fuel) Ps H).
Qed.

Section Mono.
  Context {I : Type} (f : MonoEncode I).
  Definition mono_out (i : I) : option (list byte) :=
    match f i with (chunks, None) => Some (concat chunks) | (_, Some _) => None end.
  Definition mono_wR (st : MonoEnc I) (ow : option (list byte)) : Prop :=
    match me_item st with
    | Some i => ow = mono_out i /\ be_bytes (me_buf st) = None
    | None => bytes_wR vec_box (me_buf st) ow
    end.
  Lemma mono_wsound : wsound (mono_encoder f) mono_out true False (@mono_eidle I) mono_wR.
  Proof.
    constructor.
    - intros [it [b off]] i fuel s' u [H1 H2]. cbn in H1, H2. subst. cbn. intros [= <- _].
      red; cbn. auto.
    - intros [[i|] [[b|] off]] ow H; cbn; try discriminate. intros _. exact H.
    - intros [[i|] bs] ow fuel buf e s' buf' n H; cbn [enc_encode mono_encoder]; unfold mono_encode;
        cbn [me_item me_buf].
      + destruct H as (-> & Hb). cbn [me_buf] in Hb. unfold mono_out.
        destruct (f i) as [chunks [k|]] eqn:Ef; [discriminate|].
        destruct (wc_fold chunks (mkWC [] (length buf) []) eq_refl) as (Xa & Xb).
        cbn [wc_a wc_b wc_room app] in Xa, Xb. rewrite Xa, Xb.
        set (w := concat chunks) in *.
        assert (LA : length (overwrite buf 0 (firstn (length buf) w)) = length buf).
        { unfold overwrite. cbn [firstn app]. rewrite app_length, skipn_length, firstn_length. lia. }
        destruct (skipn (length buf) w) as [|x l] eqn:Sk.
        * intros [= <- <- <-].
          assert (LW : length w <= length buf).
          { apply (f_equal (@length byte)) in Sk. rewrite skipn_length in Sk. cbn in Sk. lia. }
          rewrite (firstn_all2 w) in * by auto. split; auto. split; auto. split.
          { red; cbn. unfold bytes_wR. cbn [me_buf]. rewrite Hb. now rewrite skipn_all. }
          cbn. split; auto. unfold overwrite; cbn. now rewrite firstn_app_exact, firstn_all.
        * destruct bs as [b off]. cbn in Hb. subst b. cbn [bytes_start bytes_enc_idle be_bytes].
          intros [= <- <- <-]. split; auto. split; auto. split.
          { red; cbn. split; cbn; [lia|]. now rewrite Sk. }
          assert (LW : length buf < length w).
          { apply (f_equal (@length byte)) in Sk. rewrite skipn_length in Sk. cbn in Sk. lia. }
          cbn. split; [lia|]. unfold overwrite; cbn [firstn app].
          rewrite firstn_app, firstn_firstn, Nat.min_id, firstn_length.
          replace (length buf - Nat.min (length buf) (length w)) with 0 by lia. cbn.
          now rewrite app_nil_r.
      + destruct (bytes_encode vec_box bs buf e) as [[b' bf] r] eqn:X. intros [= <- <- ->].
        exact (ws_step (bytes_wsound vec_box) (fuel := fuel) H X).
    - intros [[i|] [[b|] off]] w n H; cbn [enc_req mono_encoder mono_enc_idle me_item bytes_enc_idle be_bytes me_buf];
        try discriminate.
      + exact (ws_req (bytes_wsound vec_box) H).
      + red in H; cbn in H. injection H as ->. intros [= <-]. reflexivity.
    - intros _. split.
      + intros [it [b off]] [H1 H2]. cbn in *. subst. split; reflexivity.
      + intros [[i|] [[b|] off]] ow H id; try discriminate id. split; reflexivity.
    - intros [].
  Qed.
End Mono.

Lemma firstn_rep : forall (b : byte) k n, firstn k (repeat b n) = repeat b (Nat.min k n).
Proof. induction k; destruct n; cbn; auto. now rewrite IHk. Qed.
Lemma skipn_rep : forall (b : byte) k n, skipn k (repeat b n) = repeat b (n - k).
Proof. induction k; destruct n; cbn; auto. Qed.
Lemma map_const : forall (b : byte) (l : list byte), map (fun _ => b) l = repeat b (length l).
Proof. induction l; cbn; congruence. Qed.
(** [PaddingEncoder] under [length(n)]. *)
Definition pad_wR (b : byte) (st : Length (option byte)) (ow : option (list byte)) : Prop :=
  ow = Some (repeat b (N.to_nat (ln_remaining st))) /\
  (ln_remaining st = 0%N \/ ln_inner st = Some b).
Lemma pad_wsound : forall b n,
  wsound (map_from_encoder (length_encoder pad_encoder) (fun _ : unit => b))
    (fun _ => Some (repeat b n)) false True
    (fun st => ln_inner st = None /\ ln_expected st = N.of_nat n /\ ln_remaining st = N.of_nat n)
    (pad_wR b).
Proof.
  intros b n.
  assert (Step : forall st ow fuel buf e st' buf' m, pad_wR b st ow ->
    length_encode pad_encoder fuel st buf e = (st', buf', Ok m) ->
    (is_reached e = true -> (ln_remaining st' =? 0)%N = true) /\
    length buf' = length buf /\ m <= length buf /\ pad_wR b st' (adv m ow) /\ agrees m buf' ow).
  { intros [s ex rm] ow fuel buf e st' buf' m (-> & H). unfold length_encode.
    cbn [ln_inner ln_remaining ln_expected] in *.
    destruct (N.ltb_spec (len buf) rm) as [L|L].
    - destruct (is_reached e) eqn:Re; [discriminate|]. cbn [andb].
      destruct H as [H|H]; [lia|]. subst s. rewrite firstn_all, skipn_all.
      cbn [enc_encode enc_idle pad_encoder pad_encode]. rewrite Re. cbn [andb].
      rewrite u64_sub_ok by (unfold len in L; lia). intros [= <- <- <-].
      rewrite app_nil_r, map_length. split; [discriminate|]. split; auto. split; auto.
      split; [split; [cbn; rewrite skipn_rep; do 2 f_equal; lia|cbn; auto]|].
      cbn. rewrite repeat_length, map_const, !firstn_rep. split; [unfold len in L; lia|].
      f_equal. unfold len in L; lia.
    - cbn [andb]. set (lim := firstn (N.to_nat rm) buf).
      assert (LL : length lim = N.to_nat rm).
      { unfold lim. rewrite firstn_length. unfold len in L. lia. }
      assert (Fin : forall st0 m0 lim0, length lim0 = length lim -> m0 = N.to_nat rm -> firstn m0 lim0 = repeat b (N.to_nat rm) ->
        (mkLength st0 ex 0%N, lim0 ++ skipn (N.to_nat rm) buf, Ok m0) = (st', buf', Ok m) ->
        (is_reached e = true -> (ln_remaining st' =? 0)%N = true) /\
        length buf' = length buf /\ m <= length buf /\
        pad_wR b st' (adv m (Some (repeat b (N.to_nat rm)))) /\ agrees m buf' (Some (repeat b (N.to_nat rm)))).
      { intros st0 m0 lim0 Ll Em Eb [= <- <- <-]. split; auto. rewrite app_length, skipn_length.
        unfold len in L. split; [lia|]. split; [lia|]. split.
        - split; [|cbn; auto]. cbn. rewrite skipn_all2; [reflexivity|]. rewrite repeat_length. lia.
        - cbn. rewrite repeat_length. split; [lia|]. rewrite firstn_app. replace (m0 - length lim0) with 0 by lia.
          cbn. rewrite app_nil_r, Eb. rewrite firstn_all2; auto. rewrite repeat_length; lia. }
      destruct s as [c|]; cbn [enc_encode pad_encoder pad_encode is_reached eos_new].
      + destruct H as [H|H]; [|injection H as ->].
        * subst rm. rewrite u64_sub_ok by lia.
          change (is_reached (eos_new true)) with true. cbn.
          intros H. apply (Fin None 0 []); auto. 
        * rewrite LL. rewrite u64_sub_ok by lia. change (is_reached (eos_new true)) with true.
          cbn [enc_idle pad_encoder andb]. replace (rm - N.of_nat (N.to_nat rm))%N with 0%N by lia. cbn [N.eqb negb].
          apply Fin; auto. { now rewrite map_length. }
          rewrite map_const, firstn_rep. f_equal; lia.
      + destruct H as [H|H]; [|discriminate]. subst rm. rewrite u64_sub_ok by lia. cbn.
        intros H. apply (Fin None 0 []); auto. }
  constructor.
  - intros [s ex rm] i fuel s' u (H1 & H2 & H3). cbn in H1, H2, H3. subst. cbn. rewrite N.eqb_refl.
    intros [= <- _]. split; cbn; auto. now rewrite Nat2N.id.
  - intros [s ex rm] ow (-> & _) id. cbn in id. apply N.eqb_eq in id. cbn. now rewrite id.
  - intros st ow fuel buf e s' buf' m r X. cbn in X. apply (Step _ _ _ _ _ _ _ _ r X).
  - intros [s ex rm] w m ([= ->] & _) [= <-]. unfold len. cbn. rewrite repeat_length. lia.
  - discriminate.
  - intros _ st ow fuel buf e s' buf' m r X. cbn in X. destruct (Step _ _ _ _ _ _ _ _ r X) as (A & _ & _ & B & C).
    cbn. split; auto. intros w -> ->. destruct B as [B _]. cbn in B. rewrite skipn_all in B.
    injection B as B. apply (f_equal (@length byte)) in B. rewrite repeat_length in B. cbn in B. lia.
Qed.

(** ** Combinators that only change the start *)
Lemma map_from_wsound : forall S I T (E : Encoder S I) enc again strict P R (f : T -> I),
  wsound E enc again strict P R ->
  wsound (map_from_encoder E f) (fun t => enc (f t)) again strict P R.
Proof.
  intros S I T E enc again strict P R f H. eapply wsound_ext; eauto.
  intros s i fuel s' u Ps X. cbn in X. exact (ws_start H Ps X).
Qed.
Lemma try_map_from_wsound : forall S I T (E : Encoder S I) enc again strict P R (f : T -> I + ErrorKind),
  wsound E enc again strict P R ->
  wsound (try_map_from_encoder E f)
    (fun t => match f t with inl i => enc i | inr _ => None end) again strict P R.
Proof.
  intros S I T E enc again strict P R f H. eapply wsound_ext; eauto.
  intros s i fuel s' u Ps X. cbn in X. destruct (f i); [|discriminate]. exact (ws_start H Ps X).
Qed.
Lemma map_err_wsound : forall S I (E : Encoder S I) enc again strict P R f,
  wsound E enc again strict P R -> wsound (map_err_encoder E f) enc again strict P R.
Proof.
  intros S I E enc again strict P R f H. eapply wsound_ext; eauto.
  - intros s i fuel s' u Ps X. cbn in X. destruct (enc_start E fuel s i) as [s1 [v| | |]] eqn:Y; try discriminate.
    injection X as -> _. exact (ws_start H Ps Y).
  - intros fuel s buf e s' buf' n X. cbn in X. destruct (enc_encode E fuel s buf e) as [[s1 b1] [v| | |]]; try discriminate.
    exact X.
Qed.
Lemma optional_wsound : forall S I (E : Encoder S I) enc strict P R,
  wsound E enc true strict P R ->
  wsound (optional_encoder E) (fun o => match o with Some i => enc i | None => Some [] end)
    true strict P R.
Proof.
  intros S I E enc strict P R H. eapply wsound_ext; eauto.
  intros s [i|] fuel s' u Ps X; cbn in X.
  - exact (ws_start H Ps X).
  - injection X as -> _. apply (ws_rest H eq_refl); auto.
Qed.

(** ** Tuples *)
Lemma opt_finite_add : forall a b n, opt_finite (u64_add a b) = Ok (Finite n) -> n = (a + b)%N.
Proof.
  intros a b n. unfold u64_add. destruct (_ <=? _)%N; [|discriminate]. now intros [= <-].
Qed.
Lemma try_encode_sound : forall S I (E : Encoder S I) enc again strict P R fuel s ow off buf e t buf',
  wsound E enc again strict P R -> R s ow -> try_encode E fuel s off buf e = (t, buf') ->
  match t with
  | TGo s' off' => enc_idle E s' = true /\ off <= off' /\ length buf' = length buf /\
      (off <= length buf -> off' <= length buf) /\
      R s' (adv (off' - off) ow) /\ agrees (off' - off) (skipn off buf') ow /\ firstn off buf' = firstn off buf
  | TRet s' (Ok off') => enc_idle E s' = false /\ off <= off' /\ length buf' = length buf /\ off' <= length buf /\
      R s' (adv (off' - off) ow) /\ agrees (off' - off) (skipn off buf') ow /\ firstn off buf' = firstn off buf
      /\ (strict -> is_reached e = false /\ forall w, ow = Some w -> off' - off <> length w)
  | TRet _ _ => True
  end.
Proof.
  intros S I E enc again strict P R fuel s ow off buf e t buf' H r. unfold try_encode.
  destruct (enc_idle E s) eqn:id.
  { intros [= <- <-]. rewrite Nat.sub_diag, adv_0. repeat split; auto.
    rewrite (ws_idle H r id). cbn. auto. }
  unfold slice_from. destruct (Nat.leb_spec off (length buf)); [|intros [= <- <-]; auto].
  destruct (enc_encode E fuel s (skipn off buf) e) as [[s' b'] [n| | |]] eqn:X;
    try (intros [= <- <-]; exact Logic.I).
  destruct (ws_step H r X) as (A1 & A2 & A3 & A4). rewrite skipn_length in *.
  assert (B1 : length (firstn off buf ++ b') = length buf).
  { rewrite app_length, firstn_length. lia. }
  assert (B2 : firstn off (firstn off buf ++ b') = firstn off buf).
  { rewrite firstn_app, firstn_length, firstn_firstn, Nat.min_id.
    replace (off - _) with 0 by lia. apply app_nil_r. }
  assert (B3 : skipn off (firstn off buf ++ b') = b').
  { rewrite skipn_app, firstn_length. replace (off - _) with 0 by lia.
    rewrite skipn_all2 by (rewrite firstn_length; lia). reflexivity. }
  destruct (enc_idle E s') eqn:id'; intros [= <- <-];
    replace (off + n - off) with n by lia; rewrite B3;
    (split; [auto|]; split; [lia|]; split; [auto|]; split; [lia|]; split; [auto|]; split; [auto|]);
    auto.
  split; auto. intros Str. destruct (ws_strict H Str r X) as [Y Y']. split.
  - destruct (is_reached e); auto. rewrite id' in Y. discriminate (Y eq_refl).
  - intros w Ew En. rewrite (Y' w Ew En) in id'. discriminate.
Qed.
Arguments try_encode_sound {S I E enc again strict P R fuel s ow off buf e t buf'} _ _ _.

Section Pair.
  Context {S0 S1 I0 I1 : Type} (E0 : Encoder S0 I0) (E1 : Encoder S1 I1).
  Context {enc0 : I0 -> option (list byte)} {enc1 : I1 -> option (list byte)} {a0 a1 : bool}
    {st0 st1 : Prop} {P0 : S0 -> Prop} {P1 : S1 -> Prop}
    {R0 : S0 -> option (list byte) -> Prop} {R1 : S1 -> option (list byte) -> Prop}.
  Hypothesis H0 : wsound E0 enc0 a0 st0 P0 R0.
  Hypothesis H1 : wsound E1 enc1 a1 st1 P1 R1.
  Definition pair_wR (s : S0 * S1) (ow : option (list byte)) : Prop :=
    exists o0 o1, R0 (fst s) o0 /\ R1 (snd s) o1 /\ ow = oapp o0 o1.
  Lemma pair_wsound : wsound (tuple2_encoder E0 E1) (fun i => oapp (enc0 (fst i)) (enc1 (snd i)))
    (a0 && a1) (st0 /\ st1) (fun s => P0 (fst s) /\ P1 (snd s)) pair_wR.
  Proof.
    assert (Step : forall s ow fuel buf e s' buf' n, pair_wR s ow ->
      enc_encode (tuple2_encoder E0 E1) fuel s buf e = (s', buf', Ok n) ->
      (length buf' = length buf /\ n <= length buf /\ pair_wR s' (adv n ow) /\ agrees n buf' ow) /\
      (st0 /\ st1 -> (is_reached e = true -> enc_idle E0 (fst s') && enc_idle E1 (snd s') = true) /\
         (forall w, ow = Some w -> n = length w -> enc_idle E0 (fst s') && enc_idle E1 (snd s') = true))).
    { intros [s0 s1] ow fuel buf e s' buf' n (o0 & o1 & r0 & r1 & ->). cbn in r0, r1.
      cbn [enc_encode tuple2_encoder tuple_of_enc_parts enc_parts2 ep_snoc ep_one ep_encode fst snd].
      destruct (try_encode E0 fuel s0 0 buf e) as [t0 b0] eqn:X0.
      pose proof (try_encode_sound H0 r0 X0) as K0.
      destruct t0 as [s0' off0|s0' [off0| | |]]; try discriminate.
      - destruct K0 as (id0 & _ & L0 & O0 & r0' & A0 & _). rewrite Nat.sub_0_r in *. cbn [skipn] in A0.
        specialize (O0 (Nat.le_0_l _)).
        destruct (try_encode E1 fuel s1 off0 b0 e) as [t1 b1] eqn:X1.
        pose proof (try_encode_sound H1 r1 X1) as K1.
        assert (Z : adv off0 o0 = Some []) by exact (ws_idle H0 r0' id0).
        assert (Fin : forall s1' off1, off0 <= off1 -> length b1 = length b0 -> off1 <= length b0 ->
          R1 s1' (adv (off1 - off0) o1) -> agrees (off1 - off0) (skipn off0 b1) o1 ->
          firstn off0 b1 = firstn off0 b0 ->
          length b1 = length buf /\ off1 <= length buf /\ pair_wR (s0', s1') (adv off1 (oapp o0 o1)) /\
          agrees off1 b1 (oapp o0 o1)).
        { intros s1' off1 Lo Lb Lo1 r1' A1 Fe. split; [lia|]. split; [lia|].
          destruct o0 as [w0|]; [|discriminate Z]. cbn in Z. injection Z as Z.
          destruct A0 as [A0 A0'].
          assert (off0 = length w0) as Ew.
          { apply (f_equal (@length byte)) in Z. rewrite skipn_length in Z. cbn in Z. lia. }
          replace off1 with (off0 + (off1 - off0)) by lia. set (m := off1 - off0) in *.
          assert (Q : adv (off0 + m) (oapp (Some w0) o1) = adv m o1).
          { destruct o1 as [w1|]; cbn; auto. rewrite Ew, <- (Nat.add_comm m), <- skipn_skipn.
            now rewrite skipn_app_exact. }
          rewrite Q. split.
          - exists (Some []), (adv m o1). rewrite oapp_nil. cbn [fst snd]. cbn [adv option_map] in r0'. rewrite Z in r0'. auto.
          - rewrite <- (firstn_skipn off0 b1). rewrite Fe.
            apply agrees_trans; [lia|apply agrees_oapp; cbn; auto|].
            destruct o1 as [w1|]; cbn [oapp adv option_map]; [|exact Logic.I]. replace (skipn off0 (w0 ++ w1)) with w1 by (now rewrite Ew, skipn_app_exact). exact A1. }
        destruct t1 as [s1' off1|s1' [off1| | |]]; try discriminate.
        + destruct K1 as (id1 & Lo & Lb & Lo1 & r1' & A1 & Fe). intros [= <- <- <-]. cbn [fst snd].
          split; [apply Fin; auto; lia|]. rewrite id0, id1. auto.
        + destruct K1 as (id1 & Lo & Lb & Lo1 & r1' & A1 & Fe & Str). intros [= <- <- <-]. cbn [fst snd].
          split; [apply Fin; auto; lia|]. intros [T0 T1]. destruct (Str T1) as [Q1 Q2].
          split; [congruence|]. intros w Ew ->. exfalso.
          destruct o0 as [w0|]; [|discriminate Z]. destruct o1 as [w1|]; [|discriminate Ew].
          cbn in Ew, Z. injection Ew as <-. injection Z as Z. destruct A0 as [A0 A0'].
          apply (f_equal (@length byte)) in Z. rewrite skipn_length in Z. cbn in Z.
          apply (Q2 w1 eq_refl). rewrite app_length. lia.
      - destruct K0 as (id0 & _ & L0 & O0 & r0' & A0 & _ & Str). rewrite Nat.sub_0_r in *.
        cbn [skipn] in A0. intros [= <- <- <-]. cbn [fst snd]. split.
        + split; auto. split; auto. split; [|apply agrees_oapp; auto].
          exists (adv off0 o0), o1. cbn. split; auto. split; auto. eapply adv_oapp; eauto.
        + intros [T0 T1]. destruct (Str T0) as [Q1 Q2]. split; [congruence|].
          intros w Ew ->. exfalso. destruct o0 as [w0|]; [|discriminate Ew].
          destruct o1 as [w1|]; [|discriminate Ew]. cbn in Ew. injection Ew as <-.
          destruct A0 as [A0 _]. rewrite app_length in *. apply (Q2 w0 eq_refl). lia. }
    constructor.
    - intros [s0 s1] [i0 i1] fuel s' u [p0 p1]; cbn in *.
      destruct (enc_start E0 fuel s0 i0) as [s0' [v| | |]] eqn:X0; try discriminate.
      destruct (enc_start E1 fuel s1 i1) as [s1' r1] eqn:X1. intros [= <- ->].
      exists (enc0 i0), (enc1 i1). cbn. split; [exact (ws_start H0 p0 X0)|].
      split; [exact (ws_start H1 p1 X1)|reflexivity].
    - intros [s0 s1] ow (o0 & o1 & r0 & r1 & ->) id. cbn in *. apply andb_prop in id. destruct id as [i0 i1].
      rewrite (ws_idle H0 r0 i0), (ws_idle H1 r1 i1). reflexivity.
    - intros s ow fuel buf e s' buf' n r X. apply (Step _ _ _ _ _ _ _ _ r X).
    - intros [s0 s1] w n (o0 & o1 & r0 & r1 & Ew). cbn in *.
      destruct o0 as [w0|]; [|discriminate]. destruct o1 as [w1|]; [|discriminate].
      injection Ew as ->. rewrite len_app.
      destruct (enc_req E0 s0) as [[n0| |]| | |] eqn:Q0; cbn; try discriminate;
        destruct (enc_req E1 s1) as [[n1| |]| | |] eqn:Q1; cbn; try discriminate;
        unfold u64_add at 1; try (destruct (0 + n0 <=? u64_max)%N; discriminate); try discriminate.
      destruct (0 + n0 <=? u64_max)%N; [|discriminate]. cbn [opt_finite rbind add_for_encoding].
      intros X. apply opt_finite_add in X. subst n. rewrite N.add_0_l, (ws_req H0 r0 Q0), (ws_req H1 r1 Q1). reflexivity.
    - intros Ag. apply andb_prop in Ag. destruct Ag as [Ea Eb].
      destruct (ws_rest H0 Ea) as [A1 A2], (ws_rest H1 Eb) as [B1 B2]. split.
      + intros [s0 s1] [p0 p1]. cbn in *. destruct (A1 _ p0) as [C1 C2], (B1 _ p1) as [D1 D2].
        rewrite C2, D2. split; auto. exists (Some []), (Some []); auto.
      + intros [s0 s1] ow (o0 & o1 & r0 & r1 & ->) id. cbn in *. apply andb_prop in id.
        destruct id as [i0 i1]. eauto.
    - intros T s ow fuel buf e s' buf' n r X. apply (Step _ _ _ _ _ _ _ _ r X). exact T.
  Qed.
End Pair.

(** Longer tuples. *)
Lemma snoc_wsound : forall S I S' I' (PP : EncParts S I) (E : Encoder S' I') enc0 enc1 a0 a1 st0 st1 P0 P1 R0 R1,
  eparts_ok PP -> wsound (tuple_of_enc_parts PP) enc0 a0 st0 P0 R0 -> wsound E enc1 a1 st1 P1 R1 ->
  wsound (tuple_of_enc_parts (ep_snoc PP E)) (fun i => oapp (enc0 (fst i)) (enc1 (snd i)))
    (a0 && a1) (st0 /\ st1) (fun s => P0 (fst s) /\ P1 (snd s)) (pair_wR (R0 := R0) (R1 := R1)).
Proof.
  intros S I S' I' PP E enc0 enc1 a0 a1 st0 st1 P0 P1 R0 R1 OK H0 H1.
  destruct (etuple_snoc_sim E OK) as (E1 & E2 & E3 & E4).
  pose proof (pair_wsound H0 H1) as [K1 K2 K3 K4 K5 K6]. constructor.
  - intros s i fuel s' u Ps X. rewrite <- E2 in X. eauto.
  - intros s ow r id. rewrite <- E4 in id. eauto.
  - intros s ow fuel buf e s' buf' n r X. rewrite <- E1 in X. eauto.
  - intros [s0 s1] w n (o0 & o1 & r0 & r1 & Ew). cbn in *.
    destruct o0 as [w0|]; [|discriminate]. destruct o1 as [w1|]; [|discriminate].
    injection Ew as ->. rewrite len_app.
    destruct (ep_req PP (Finite 0) s0) as [[n0| |]| | |] eqn:Q0; cbn; try discriminate;
      destruct (enc_req E s1) as [[n1| |]| | |] eqn:Q1; cbn; try discriminate;
      try discriminate.
    intros X. apply opt_finite_add in X. subst n. rewrite (ws_req H0 r0 Q0), (ws_req H1 r1 Q1). reflexivity.
  - intros Ag. destruct (K5 Ag) as [A B]. split.
    + intros s Ps. rewrite <- E4. auto.
    + intros s ow r id. rewrite <- E4 in id. eauto.
  - intros T s ow fuel buf e s' buf' n r X. rewrite <- E1 in X. rewrite <- E4. eapply K6; eauto.
Qed.

(** ** [length(n)] *)
Definition len_is (n : N) (ow : option (list byte)) : option (list byte) :=
  match ow with Some w => if (len w =? n)%N then Some w else None | None => None end.
Section LengthW.
  Context {S I : Type} (E : Encoder S I) {enc : I -> option (list byte)} {again : bool}
    {strict : Prop} {P : S -> Prop} {R : S -> option (list byte) -> Prop} (n : N).
  Hypothesis H : wsound E enc again strict P R.
  Hypothesis Str : strict.
  Hypothesis N0 : (0 < n)%N.
  Definition length_wR (st : Length S) (ow : option (list byte)) : Prop :=
    exists o, R (ln_inner st) o /\ ow = len_is (ln_remaining st) o /\
      (ow = None -> ln_remaining st <> 0%N).
  Lemma length_wsound : wsound (length_encoder E) (fun i => len_is n (enc i)) false True
    (fun st => P (ln_inner st) /\ ln_remaining st = n /\ ln_expected st = n) length_wR.
  Proof.
    assert (Step : forall s ow fuel buf e s' buf' m, length_wR s ow ->
      length_encode E fuel s buf e = (s', buf', Ok m) ->
      (length buf' = length buf /\ m <= length buf /\ length_wR s' (adv m ow) /\ agrees m buf' ow) /\
      ((is_reached e = true -> ln_remaining s' = 0%N) /\
       (forall w, ow = Some w -> m = length w -> ln_remaining s' = 0%N))).
    { intros [s ex rm] ow fuel buf e s' buf' m (o & r & Eo & No). unfold length_encode.
      cbn [ln_inner ln_remaining ln_expected] in *.
      destruct ((len buf <? rm)%N && is_reached e) eqn:SR; [discriminate|].
      set (limit := if (len buf <? rm)%N then length buf else N.to_nat rm).
      set (e' := if (len buf <? rm)%N then e else eos_new true).
      destruct (enc_encode E fuel s (firstn limit buf) e') as [[s1 b1] [size| | |]] eqn:X; try discriminate.
      destruct (ws_step H r X) as (A1 & A2 & A3 & A4).
      destruct (ws_strict H Str r X) as [B1 B2].
      assert (LL : length (firstn limit buf) = limit).
      { rewrite firstn_length. unfold limit. destruct (N.ltb_spec (len buf) rm); unfold len in *; lia. }
      rewrite LL in *. 
      unfold u64_sub. destruct (N.leb_spec (N.of_nat size) rm) as [Ls|Ls]; [|discriminate].
      destruct (enc_idle E s1 && negb (rm - N.of_nat size =? 0)%N) eqn:Bad; [discriminate|].
      intros [= <- <- <-]. cbn [ln_remaining].
      assert (LB : limit <= length buf).
      { unfold limit. destruct (N.ltb_spec (len buf) rm); unfold len in *; lia. }
      assert (Full : (len buf <? rm)%N = false -> enc_idle E s1 = true).
      { intros Q. apply B1. unfold e'. rewrite Q. reflexivity. }
      assert (Done : enc_idle E s1 = true -> exists w, o = Some w /\ size = length w /\ rm = len w).
      { intros id. pose proof (ws_idle H A3 id) as Z. destruct o as [w|]; [|discriminate Z].
        exists w. split; auto. cbn in Z, A4. injection Z as Z. destruct A4 as [A4 _].
        apply (f_equal (@length byte)) in Z. rewrite skipn_length in Z. cbn in Z.
        rewrite id in Bad. unfold len. lia. }
      split.
      - rewrite app_length, skipn_length. split; [lia|]. split; [lia|].
        assert (Ag : agrees size (b1 ++ skipn limit buf) ow).
        { rewrite Eo. destruct o as [w|]; cbn; auto. destruct (len w =? rm)%N; cbn; auto.
          destruct A4 as [A4 A5]. split; auto. rewrite firstn_app. replace (size - length b1) with 0 by lia.
          cbn. now rewrite app_nil_r. }
        split; auto. exists (adv size o). cbn [ln_inner ln_remaining]. split; auto.
        assert (Q : adv size ow = len_is (rm - N.of_nat size) (adv size o)).
        { rewrite Eo. destruct o as [w|]; cbn; auto. destruct A4 as [A4 _]. unfold len. rewrite skipn_length.
          destruct (N.eqb_spec (N.of_nat (length w)) rm);
            destruct (N.eqb_spec (N.of_nat (length w - size)) (rm - N.of_nat size)); auto; lia. }
        split; auto. intros Z. destruct ow as [w|]; [discriminate Z|].
        destruct (len buf <? rm)%N eqn:Sh.
        + unfold limit in *. unfold len in Sh. lia.
        + destruct (Done (Full eq_refl)) as (w & -> & Es & Er). cbn in Eo. rewrite Er, N.eqb_refl in Eo. discriminate Eo.
      - split.
        + intros Re. rewrite Re in SR. destruct (len buf <? rm)%N eqn:Sh; [discriminate SR|].
          destruct (Done (Full eq_refl)) as (w & -> & Es & Er). unfold len in Er. lia.
        + intros w -> ->. destruct o as [v|]; [|discriminate Eo]. cbn in Eo.
          destruct (N.eqb_spec (len v) rm); [|discriminate Eo]. injection Eo as ->. unfold len in *. lia. }
    constructor.
    - intros [s ex rm] i fuel s' u (p & E1 & E2). cbn in p, E1, E2. subst. cbn. rewrite N.eqb_refl.
      destruct (enc_start E fuel s i) as [s1 r1] eqn:X. intros [= <- ->].
      exists (enc i). cbn. split; [exact (ws_start H p X)|]. split; auto. lia.
    - intros [s ex rm] ow (o & r & Eo & No) id. cbn in *. apply N.eqb_eq in id. subst rm.
      destruct ow as [w|]; [|now elim No]. destruct o as [v|]; [|discriminate Eo]. cbn in Eo.
      destruct (N.eqb_spec (len v) 0); [|discriminate Eo]. injection Eo as ->. now rewrite (len_0 v).
    - intros s ow fuel buf e s' buf' m r X. apply (Step _ _ _ _ _ _ _ _ r X).
    - intros [s ex rm] w m (o & r & Eo & No) [= <-]. cbn in *. destruct o as [v|]; [|discriminate Eo].
      cbn in Eo. destruct (N.eqb_spec (len v) rm); [|discriminate Eo]. now injection Eo as ->.
    - discriminate.
    - intros _ s ow fuel buf e s' buf' m r X. destruct (Step _ _ _ _ _ _ _ _ r X) as [_ [A B]].
      cbn. split; intros; apply N.eqb_eq; eauto.
  Qed.
End LengthW.

(** ** [max_bytes(n)] *)
Definition len_le (n : N) (ow : option (list byte)) : option (list byte) :=
  match ow with Some w => if (len w <=? n)%N then Some w else None | None => None end.
Section MaxW.
  Context {S I : Type} (E : Encoder S I) {enc : I -> option (list byte)} {again : bool}
    {strict : Prop} {P : S -> Prop} {R : S -> option (list byte) -> Prop} (n : N).
  Hypothesis H : wsound E enc again strict P R.
  Definition max_wR (st : MaxBytes S) (ow : option (list byte)) : Prop :=
    mx_max st = n /\
    exists o, R (mx_inner st) o /\
      ow = match o with
           | Some w => if (mx_consumed st + len w <=? n)%N then Some w else None
           | None => None
           end /\
      (enc_idle E (mx_inner st) = true -> mx_consumed st = 0%N).
  Lemma max_wsound : wsound (max_encoder E) (fun i => len_le n (enc i)) again strict
    (fun st => P (mx_inner st) /\ mx_consumed st = 0%N /\ mx_max st = n) max_wR.
  Proof.
    constructor.
    - intros [s c mx] i fuel s' u (p & E1 & E2). cbn in p, E1, E2. subst. cbn.
      destruct (enc_start E fuel s i) as [s1 r1] eqn:X. intros [= <- ->].
      split; cbn; auto. exists (enc i). split; [exact (ws_start H p X)|]. split; auto.
    - intros [s c mx] ow (Em & o & r & Eo & Z) id. cbn in *. rewrite (ws_idle H r id) in Eo.
      rewrite (Z id) in Eo. subst ow. unfold len. cbn. destruct n; reflexivity.
    - intros [s c mx] ow fuel buf e s' buf' m (Em & o & r & Eo & Z). cbn [mx_inner mx_consumed mx_max] in *.
      cbn [enc_encode max_encoder]. unfold max_encode. cbn [mx_inner mx_consumed mx_max].
      destruct (enc_encode E fuel s buf e) as [[s1 b1] [size| | |]] eqn:X; try discriminate.
      unfold u64_add. destruct (c + N.of_nat size <=? u64_max)%N; [|discriminate].
      destruct (N.leb_spec (c + N.of_nat size) mx) as [Le|]; [|discriminate]. intros [= <- <- <-].
      destruct (ws_step H r X) as (A1 & A2 & A3 & A4). split; auto. split; auto. split.
      + split; auto. exists (adv size o). cbn [mx_inner mx_consumed]. split; auto. split.
        * rewrite Eo. destruct o as [w|]; auto. cbn [adv option_map]. destruct A4 as [A4 _].
          assert (LS : len (skipn size w) = (len w - N.of_nat size)%N).
          { unfold len. rewrite skipn_length. lia. }
          rewrite LS. destruct (enc_idle E s1) eqn:id.
          -- pose proof (ws_idle H A3 id) as Y. cbn in Y. injection Y as Y.
             apply (f_equal (@length byte)) in Y. rewrite skipn_length in Y. cbn in Y.
             replace (c + len w <=? n)%N with true by (unfold len; lia).
             replace (0 + (len w - N.of_nat size) <=? n)%N with true by (unfold len; lia). reflexivity.
          -- destruct (N.leb_spec (c + len w) n);
               destruct (N.leb_spec (c + N.of_nat size + (len w - N.of_nat size)) n); cbn; auto;
               unfold len in *; lia.
        * intros ->. reflexivity.
      + rewrite Eo. destruct o as [w|]; cbn; auto. destruct (_ <=? _)%N; cbn; auto.
    - intros [s c mx] w m (Em & o & r & Eo & Z) X. cbn in *. destruct o as [v|]; [|discriminate Eo].
      destruct (_ <=? _)%N in Eo; [|discriminate Eo]. injection Eo as ->. exact (ws_req H r X).
    - intros Ag. destruct (ws_rest H Ag) as [A B]. split.
      + intros [s c mx] (p & E1 & E2). cbn in *. subst. destruct (A _ p) as [C D]. split; auto.
        split; auto. exists (Some []). cbn. split; auto. split; auto. destruct n; reflexivity.
      + intros [s c mx] ow (Em & o & r & Eo & Z) id. cbn in *. eauto.
    - intros T [s c mx] ow fuel buf e s' buf' m (Em & o & r & Eo & Z). cbn [mx_inner mx_consumed mx_max] in *.
      cbn [enc_encode max_encoder]. unfold max_encode. cbn [mx_inner mx_consumed mx_max].
      destruct (enc_encode E fuel s buf e) as [[s1 b1] [size| | |]] eqn:X; try discriminate.
      unfold u64_add. destruct (c + N.of_nat size <=? u64_max)%N; [|discriminate].
      destruct (N.leb_spec (c + N.of_nat size) mx) as [Le|]; [|discriminate]. intros [= <- <- <-].
      destruct (ws_strict H T r X) as [A B]. cbn. split; auto.
      intros w Ew En. destruct o as [v|]; [|congruence].
      destruct (_ <=? _)%N in Eo; [|congruence]. apply (B v); congruence.
  Qed.
End MaxW.

(** ** [pre_encode] *)
Lemma wr_write_all_data : forall fuel w b w', wr_write_all_loop fuel w b = (w', Ok tt) ->
  wr_data w' = wr_data w ++ b.
Proof.
  induction fuel as [|fuel IH]; intros w b w'; cbn [wr_write_all_loop]; destruct b as [|x b];
    try discriminate; try (intros [= <-]; now rewrite app_nil_r).
  destruct w as [d [|[k| |io] pl]]; unfold wr_write; cbn [wr_plan wr_data].
  - cbn [length]. intros H. apply IH in H. cbn [wr_data] in H. rewrite H.
    rewrite skipn_all2 by (cbn; lia). now rewrite app_nil_r.
  - destruct (Nat.min (length (x :: b)) (Datatypes.S k)) as [|m] eqn:M; [discriminate|].
    intros H. apply IH in H. cbn [wr_data] in H. rewrite H, <- app_assoc. now rewrite firstn_skipn.
  - discriminate.
  - destruct io; try discriminate. intros H. now apply IH in H.
Qed.
Lemma encode_all_sound : forall S I (E : Encoder S I) enc again strict P R, wsound E enc again strict P R ->
  forall fuel ifuel s ow buf w s' w', R s ow ->
  encode_all_loop E fuel ifuel s buf w = (s', w', Ok tt) ->
  enc_idle E s' = true /\ R s' (Some []) /\ exists out, ow = Some out /\ wr_data w' = wr_data w ++ out.
Proof.
  intros S I E enc again strict P R H. induction fuel as [|fuel IH]; intros ifuel s ow buf w s' w' r;
    cbn [encode_all_loop]; destruct (enc_idle E s) eqn:id; try discriminate.
  { intros [= <- <-]. pose proof (ws_idle H r id) as ->. split; auto. split; auto. exists [].
    now rewrite app_nil_r. }
  { intros [= <- <-]. pose proof (ws_idle H r id) as ->. split; auto. split; auto. exists [].
    now rewrite app_nil_r. }
  destruct (enc_encode E ifuel s buf (eos_new false)) as [[s1 b1] [n| | |]] eqn:X; try discriminate.
  destruct (n <=? length b1); [|discriminate].
  destruct (wr_write_all w (firstn n b1)) as [w1 [[]| | |]] eqn:W; try discriminate.
  destruct (negb (enc_idle E s1) && (n =? 0)); [discriminate|].
  destruct (ws_step H r X) as (A1 & A2 & A3 & A4). intros Y.
  destruct (IH _ _ _ _ _ _ _ A3 Y) as (B1 & B2 & out & B3 & B4). split; auto. split; auto.
  unfold wr_write_all in W. apply wr_write_all_data in W.
  destruct ow as [w0|]; [|discriminate B3]. cbn in B3, A4. injection B3 as <-. exists w0. split; auto.
  rewrite B4, W, <- app_assoc. destruct A4 as [_ ->]. now rewrite firstn_skipn.
Qed.
Arguments encode_all_sound {S I E enc again strict P R} _ {fuel ifuel s ow buf w s' w'} _ _.
Lemma encode_into_bytes_sound : forall S I (E : Encoder S I) enc again strict P R,
  wsound E enc again strict P R ->
  forall fuel s i s' b, P s -> encode_into_bytes E fuel s i = (s', Ok b) ->
  enc_idle E s' = true /\ R s' (Some []) /\ enc i = Some b.
Proof.
  intros S I E enc again strict P R H fuel s i s' b Ps. unfold encode_into_bytes.
  destruct (enc_start E fuel s i) as [s1 [[]| | |]] eqn:X; try discriminate.
  pose proof (ws_start H Ps X) as r.
  destruct (enc_req E s1) as [[n| |]| | |] eqn:Q; try discriminate.
  - destruct (n <=? isize_max)%N; [|discriminate].
    destruct (enc_encode E fuel s1 (repeat x00 (N.to_nat n)) (eos_new true)) as [[s2 b2] [m| | |]] eqn:Y;
      try discriminate.
    destruct (enc_idle E s2) eqn:id; [|discriminate]. intros [= <- <-].
    destruct (ws_step H r Y) as (A1 & A2 & A3 & A4). pose proof (ws_idle H A3 id) as Z.
    destruct (enc i) as [w|] eqn:Ei; [|discriminate Z]. rewrite Z in A3. split; auto. split; auto.
    f_equal. pose proof (ws_req H r Q) as Qn. rewrite repeat_length in *. cbn in Z, A4. destruct A4 as [A4 A5].
    injection Z as Z. apply (f_equal (@length byte)) in Z. rewrite skipn_length in Z. cbn in Z.
    unfold len in Qn. rewrite (firstn_all2 w), firstn_all2 in A5 by lia. auto.
  - destruct (encode_all E fuel s1 (mkWriter [] [])) as [[s2 w2] [[]| | |]] eqn:Y; try discriminate.
    destruct (_ <=? _)%N; [|discriminate]. intros [= <- <-].
    destruct (encode_all_sound H r Y) as (B1 & B2 & out & B3 & B4). cbn in B4. rewrite B4. auto.
Qed.
Arguments encode_into_bytes_sound {S I E enc again strict P R} _ {fuel s i s' b} _ _.
Lemma pre_wsound : forall S I (E : Encoder S I) enc again strict P R,
  wsound E enc again strict P R ->
  wsound (pre_encoder E) enc again True
    (fun st => P (pre_inner st) /\ bytes_eidle (pre_encoded st))
    (fun st ow => bytes_wR vec_box (pre_encoded st) ow /\ (again = true -> P (pre_inner st))).
Proof.
  intros S I E enc again strict P R H. set (K := bytes_wsound vec_box). constructor.
  - intros [s b] i fuel s' u [p q]. cbn in p, q. cbn [enc_start pre_encoder]. unfold pre_start.
    cbn [pre_inner pre_encoded].
    destruct (encode_into_bytes E fuel s i) as [s1 [w| | |]] eqn:X; try discriminate.
    destruct (encode_into_bytes_sound H p X) as (id & r & ->).
    destruct (bytes_start b w) as [b' r'] eqn:Y. intros [= <- ->]. cbn. split.
    + exact (ws_start K (fuel := 0) q Y).
    + intros Ag. eapply (ws_rest H Ag); eauto.
  - intros [s b] ow [r p] id. exact (ws_idle K r id).
  - intros [s b] ow fuel buf e s' buf' n [r p] X. cbn in *.
    destruct (bytes_encode vec_box b buf e) as [[b1 bf] res] eqn:Y. injection X as <- <- ->.
    destruct (ws_step K (fuel := 0) r Y) as (A1 & A2 & A3 & A4). auto.
  - intros [s b] w n [r p] X. exact (ws_req K r X).
  - intros Ag. split.
    + intros [s b] [p q]. cbn in *. destruct (proj1 (ws_rest K eq_refl) _ q). auto.
    + intros [s b] ow [r p] id. cbn in *. split; auto. eapply (ws_rest K eq_refl); eauto.
  - intros _ [s b] ow fuel buf e s' buf' n [r p] X. cbn in *.
    destruct (bytes_encode vec_box b buf e) as [[b1 bf] res] eqn:Y. injection X as <- <- ->.
    exact (ws_strict K Logic.I (fuel := 0) r Y).
Qed.

(** ** [repeat] *)
Section RepeatW.
  Context {S I : Type} (E : Encoder S I) {enc : I -> option (list byte)}
    {strict : Prop} {P : S -> Prop} {R : S -> option (list byte) -> Prop}.
  Hypothesis H : wsound E enc true strict P R.
  Definition seq_out (l : list I) : option (list byte) :=
    fold_right (fun i o => oapp (enc i) o) (Some []) l.
  (** Every item takes bytes, as far as the encoder has to notice missing room. *)
  Definition rep_strict : Prop := strict /\ forall i, enc i <> Some [].
  Definition rep_wR (st : Repeat S I) (ow : option (list byte)) : Prop :=
    match rp_items st with
    | None => ow = Some [] /\ enc_idle E (rp_inner st) = true /\ R (rp_inner st) (Some [])
    | Some l => exists o, R (rp_inner st) o /\ ow = oapp o (seq_out l) /\
        (rep_strict -> enc_idle E (rp_inner st) = true \/ o <> Some [])
    end.

  Lemma pull_sound : forall fuel l s o, R s o ->
    (rep_strict -> enc_idle E s = true \/ o <> Some []) ->
    match repeat_pull E fuel s l with
    | PullDone s' => enc_idle E s' = true /\ R s' (Some []) /\ oapp o (seq_out l) = Some []
    | PullGo s' rest => enc_idle E s' = false /\ exists o', R s' o' /\
        oapp o (seq_out l) = oapp o' (seq_out rest) /\ (rep_strict -> o' <> Some [])
    | PullFail _ _ r => forall n, r <> Ok n
    end.
  Proof.
    intros fuel. induction l as [|i l IH]; intros s o r St; cbn [repeat_pull];
      (destruct (enc_idle E s) eqn:id;
       [|split; auto; exists o; split; auto; split; auto;
         intros T; destruct (St T); auto; congruence]).
    - pose proof (ws_idle H r id) as ->. auto.
    - destruct (enc_start E fuel s i) as [s1 [u| | |]] eqn:X; try (cbn; congruence).
      pose proof (proj2 (ws_rest H eq_refl) _ _ r id) as p.
      pose proof (ws_start H p X) as r1. rewrite (ws_idle H r id), oapp_nil. cbn [seq_out fold_right].
      apply IH; auto. intros [T1 T2]. auto.
  Qed.
  Lemma rep_step : forall fuel n st off buf e st' buf' m ow, rep_wR st ow -> off <= length buf ->
    repeat_loop E n fuel st off buf e = (st', buf', Ok m) ->
    length buf' = length buf /\ off <= m /\ m <= length buf /\ rep_wR st' (adv (m - off) ow) /\
    agrees (m - off) (skipn off buf') ow /\ firstn off buf' = firstn off buf /\
    (rep_strict -> (is_reached e = true -> rp_items st' = None) /\
                   (forall w, ow = Some w -> m - off = length w -> rp_items st' = None)).
  Proof.
    intros fuel. induction n as [|n IH]; intros [s its] off buf e st' buf' m ow r Lo;
      cbn [repeat_loop]; [discriminate|]. cbn [rp_items rp_inner].
    assert (exists o l, R s o /\ ow = oapp o (seq_out l) /\
      (rep_strict -> enc_idle E s = true \/ o <> Some []) /\
      (match its with Some l => l | None => [] end) = l /\ (its = None -> enc_idle E s = true)) as X.
    { unfold rep_wR in r. cbn [rp_items rp_inner] in r. destruct its as [l|].
      - destruct r as (o & r & Eo & St). exists o, l. repeat split; auto. discriminate.
      - destruct r as (-> & id & r). exists (Some []), []. repeat split; auto. }
    destruct X as (o & l & ro & -> & St & El & Nid). rewrite El.
    pose proof (pull_sound fuel l ro St) as PS.
    destruct (repeat_pull E fuel s l) as [s1 rest|s1|s1 rest res] eqn:Pu.
    - destruct PS as (id1 & o' & r1 & Eo & St1). rewrite Eo in *. unfold slice_from.
      destruct (Nat.leb_spec off (length buf)); [|discriminate].
      destruct (enc_encode E fuel s1 (skipn off buf) e) as [[s2 b2] [size| | |]] eqn:Xe; try discriminate.
      destruct (ws_step H r1 Xe) as (A1 & A2 & A3 & A4). rewrite skipn_length in *.
      assert (Hits : exists l0, its = Some l0).
      { destruct its; eauto. exfalso. specialize (Nid eq_refl). rewrite <- El in Pu. cbn in Pu.
        rewrite Nid in Pu. discriminate. }
      destruct Hits as (l0 & ->).
      assert (B1 : length (firstn off buf ++ b2) = length buf).
      { rewrite app_length, firstn_length. lia. }
      assert (B2 : firstn off (firstn off buf ++ b2) = firstn off buf).
      { rewrite firstn_app, firstn_length, firstn_firstn, Nat.min_id.
        replace (off - _) with 0 by lia. apply app_nil_r. }
      assert (B3 : skipn off (firstn off buf ++ b2) = b2).
      { rewrite skipn_app, firstn_length. replace (off - _) with 0 by lia.
        rewrite skipn_all2 by (rewrite firstn_length; lia). reflexivity. }
      assert (RW : rep_wR (mkRepeat s2 (Some rest)) (adv size (oapp o' (seq_out rest)))).
      { exists (adv size o'). cbn. split; auto. split; [eapply adv_oapp; eauto|]. intros T.
        destruct (enc_idle E s2) eqn:id2; auto. right. intros Z. destruct o' as [w'|]; [|discriminate Z].
        cbn in Z. injection Z as Z. destruct A4 as [A4 _].
        apply (f_equal (@length byte)) in Z. rewrite skipn_length in Z. cbn in Z.
        destruct T as [T1 T2]. destruct (ws_strict H T1 r1 Xe) as [_ Y].
        rewrite (Y w' eq_refl) in id2 by lia. discriminate. }
      destruct (size =? 0) eqn:Sz.
      + intros [= <- <- <-]. assert (size = 0) as -> by lia. replace (off + 0 - off) with 0 by lia.
        rewrite Nat.add_0_r. rewrite B3. split; auto. split; auto. split; auto. split; auto.
        split; [apply agrees_oapp; auto|]. split; auto.
        intros T. specialize (St1 T). split.
        * intros Re. destruct (ws_strict H (proj1 T) r1 Xe) as [Y _].
          pose proof (ws_idle H A3 (Y Re)) as Z. rewrite adv_0 in Z. congruence.
        * intros w Ew Lw. destruct w; [|discriminate Lw]. exfalso. apply St1.
          destruct o' as [w'|]; [|discriminate Ew]. destruct (seq_out rest); [|discriminate Ew].
          cbn in Ew. injection Ew as Ew. apply app_eq_nil in Ew. destruct Ew as [-> _]. reflexivity.
      + assert (Lx : off + size <= length (firstn off buf ++ b2)) by (rewrite B1; lia).
        intros Y. destruct (IH _ _ _ _ _ _ _ _ RW Lx Y) as (C1 & C2 & C3 & C4 & C5 & C6 & C7).
        rewrite B1 in *. rewrite adv_adv in C4. replace (size + (m - (off + size))) with (m - off) in C4 by lia.
        assert (F1 : firstn off buf' = firstn off buf).
        { apply (f_equal (firstn off)) in C6. rewrite !firstn_firstn in C6.
          replace (Nat.min off (off + size)) with off in C6 by lia. now rewrite C6. }
        split; auto. split; [lia|]. split; auto. split; auto. split; [|split; auto].
        * replace (m - off) with (size + (m - (off + size))) by lia.
          assert (Sb : skipn off buf' = firstn size b2 ++ skipn (off + size) buf').
          { rewrite <- (firstn_skipn (off + size) buf') at 1. rewrite C6.
            rewrite firstn_app, firstn_length, firstn_firstn.
            replace (Nat.min (off + size) off) with off by lia.
            replace (off + size - Nat.min off (length buf)) with size by lia.
            rewrite <- app_assoc, skipn_app, firstn_length.
            rewrite (@skipn_all2 _ off (firstn off buf)) by (rewrite firstn_length; lia).
            replace (off - Nat.min off (length buf)) with 0 by lia. reflexivity. }
          rewrite Sb. apply agrees_trans; [lia|apply agrees_oapp; auto|auto].
        * intros T. destruct (C7 T) as [D1 D2]. split; auto.
          intros w Ew Lw. apply (D2 (skipn size w)); [rewrite Ew; reflexivity|]. rewrite skipn_length. lia.
    - destruct PS as (id1 & r1 & Eo). rewrite Eo. intros [= <- <- <-]. rewrite Nat.sub_diag.
      cbn. repeat split; auto.
    - intros [= _ _ Z]. elim (PS _ Z).
  Qed.
  Lemma repeat_wsound : wsound (repeat_encoder E) seq_out true rep_strict
    (fun st => rp_items st = None /\ P (rp_inner st)) rep_wR.
  Proof.
    constructor.
    - intros [s its] l fuel s' u [E1 p]. cbn in E1, p. subst its. cbn. intros [= <- _].
      destruct (proj1 (ws_rest H eq_refl) _ p) as [r id].
      exists (Some []). split; [exact r|]. split; [symmetry; apply oapp_nil|auto].
    - intros [s [l|]] ow r id; [discriminate id|]. apply r.
    - intros st ow fuel buf e s' buf' n r X. cbn in X.
      destruct (rep_step _ _ _ _ _ _ r (Nat.le_0_l _) X) as (A1 & A2 & A3 & A4 & A5 & _).
      rewrite Nat.sub_0_r in *. auto.
    - intros [s [l|]] w n r; cbn; [discriminate|]. destruct r as ([= ->] & _). intros [= <-]. reflexivity.
    - intros _. split.
      + intros [s its] [E1 p]. cbn in E1, p. subst its. destruct (proj1 (ws_rest H eq_refl) _ p) as [r id].
        split; [red; cbn; auto|reflexivity].
      + intros [s [l|]] ow r id; [discriminate id|]. destruct r as (_ & i1 & r). cbn in *. split; auto.
        eapply (ws_rest H eq_refl); eauto.
    - intros T st ow fuel buf e s' buf' n r X. cbn in X.
      destruct (rep_step _ _ _ _ _ _ r (Nat.le_0_l _) X) as (_ & _ & _ & _ & _ & _ & A7). rewrite Nat.sub_0_r in *.
      destruct (A7 T) as [B1 B2]. cbn. unfold repeat_idle.
      split; [intros Re; now rewrite (B1 Re)|intros w Ew Lw; now rewrite (B2 w Ew Lw)].
  Qed.
End RepeatW.

(** ** Terms *)

(** What the encoder of a number outputs for an item. *)
Definition uitem (k : unum) (n : N) : option (list byte) :=
  match enc_start (uenc k) 0 num_enc_new n with (s, Ok _) => be_bytes s | _ => None end.
Definition sitem (k : snum) (z : Z) : option (list byte) :=
  match enc_start (senc k) 0 num_enc_new z with (s, Ok _) => be_bytes s | _ => None end.
Lemma wsound_eq : forall S I (E : Encoder S I) enc enc' again (st st' : Prop) P R,
  wsound E enc again st P R -> (forall i, enc i = enc' i) -> (st' -> st) ->
  wsound E enc' again st' P R.
Proof.
  intros S I E enc enc' again st st' P R H Ee St. eapply wsound_ext; eauto.
  intros s i fuel s' u Ps X. rewrite <- Ee. exact (ws_start H Ps X).
Qed.
Lemma uenc_wsound : forall k, wsound (uenc k) (uitem k) true True (@bytes_eidle (list byte)) (bytes_wR vec_box).
Proof.
  intros k. destruct k; (eapply wsound_eq; [apply num_wsound| |auto]); intros i; unfold uitem; cbn;
    unfold total_item, max_item; try reflexivity; destruct (_ <=? _)%N; reflexivity.
Qed.
Lemma senc_wsound : forall k, wsound (senc k) (sitem k) true True (@bytes_eidle (list byte)) (bytes_wR vec_box).
Proof.
  intros k. destruct k; (eapply wsound_eq; [apply num_wsound| |auto]); intros i; reflexivity.
Qed.

(** What the encoder of a term outputs for an item, if anything. *)
Fixpoint outp {A} (c : codec A) : A -> option (list byte) :=
  match c in codec A return A -> option (list byte) with
  | CU k => uitem k
  | CS k => sitem k
  | CNull => fun _ => Some []
  | CBytes _ => fun b => Some b
  | CBytesOnce _ => fun b => Some b
  | CRest => fun b => Some b
  | CUtf8Rest => fun s => Some (str_as_bytes s)
  | CUtf8 _ => fun s => Some (str_as_bytes s)
  | CPad b n => fun _ => Some (repeat b n)
  | CMono f g => mono_out g
  | CTuple p => poutp p
  | CMap f g c => fun b => outp c (g b)
  | CTryMap f g c => fun b => match g b with inl a => outp c a | inr _ => None end
  | CMapErr _ _ c => outp c
  | COpt _ c => fun o => match o with Some a => outp c a | None => Some [] end
  | CLen _ c => outp c
  | CLen2 n c => fun a => len_is n (outp c a)
  | CMax n c => fun a => len_le n (outp c a)
  | CPeek c => outp c
  | CMaybe c => outp c
  | CPre c => outp c
  | CSeq c => seq_out (enc := outp c)
  | CSeqN _ c => seq_out (enc := outp c)
  | CPrefixed k size c => fun a => oapp (uitem k (size a)) (outp c a)
  | CCounted k c => fun l => oapp (uitem k (N.of_nat (length l))) (seq_out (enc := outp c) l)
  | CFlagged k c => fun o =>
      oapp (uitem k (match o with Some _ => 1%N | None => 0%N end))
           (match o with Some a => outp c a | None => Some [] end)
  end
with poutp {A} (p : parts A) : A -> option (list byte) :=
  match p in parts A return A -> option (list byte) with
  | PTwo c c' => fun i => oapp (outp c (fst i)) (outp c' (snd i))
  | PSnoc p c => fun i => oapp (poutp p (fst i)) (outp c (snd i))
  end.

(** *** It is the encoding of the item *)
Lemma some_inj : forall A (a b : A), Some a = Some b -> a = b.
Proof. congruence. Qed.
Lemma uitem_ok : forall k n w, num_typed k n -> uitem k n = Some w -> num_bytes k n w.
Proof.
  intros k n w T. unfold num_typed in T.
  destruct k; unfold uitem; cbn [uenc item_bits] in *;
    unfold U8Encoder, U16beEncoder, U16leEncoder, U24beEncoder, U24leEncoder, U32beEncoder, U32leEncoder,
      U40beEncoder, U40leEncoder, U48beEncoder, U48leEncoder, U56beEncoder, U56leEncoder, U64beEncoder,
      U64leEncoder, F32beEncoder, F32leEncoder, F64beEncoder, F64leEncoder, num_encoder;
    cbn [enc_start]; unfold total_item, max_item;
    try lazymatch goal with |- context [(n <=? ?m)%N] => destruct (N.leb_spec n m); [|discriminate] end;
    cbn [enc_start bytes_encoder bytes_start bytes_enc_idle be_bytes num_enc_new bytes_enc_new];
    intros X; apply some_inj in X; rewrite <- X; clear X;
    lazymatch goal with
    | |- num_bytes ?k _ _ =>
      let m := eval cbv in (uwidth k) in
      let p := eval vm_compute in (256 ^ N.of_nat m)%N in
      assert (L : (n < 256 ^ N.of_nat m)%N)
        by (change (256 ^ N.of_nat m)%N with p;
            lazymatch type of T with (_ < ?q)%N =>
              let q' := eval vm_compute in q in change q with q' in T end; lia);
      lazymatch goal with
      | |- num_bytes _ _ (write_be _ _) => exact (ube_total m L)
      | |- num_bytes _ _ (write_le _ _) => exact (ule_total m L)
      end
    end.
Qed.
Lemma sitem_ok : forall k z w, snum_typed k z -> sitem k z = Some w ->
  length w = swidth k /\ twos_complement (swidth k) z (svalue k w).
Proof.
  intros k z w L. unfold snum_typed in L.
  destruct (twos_total (width := swidth k) (z := z)) as [T B]; [destruct k; cbn; lia|exact L|].
  destruct k; unfold sitem; cbn [senc swidth svalue] in *;
    unfold I8Encoder, I16beEncoder, I16leEncoder, I32beEncoder, I32leEncoder, I64beEncoder, I64leEncoder,
      num_encoder; cbn [enc_start]; unfold total_item;
    cbn [enc_start bytes_encoder bytes_start bytes_enc_idle be_bytes num_enc_new bytes_enc_new];
    intros X; apply some_inj in X; rewrite <- X; clear X;
    lazymatch type of T with twos_complement ?m ?z ?u =>
      lazymatch goal with
      | |- _ /\ twos_complement _ _ (be_value _) =>
          destruct (ube_total m B) as [WL WV]; split; [exact WL|];
          change (twos_complement m z (be_value (write_be m u)));
          change (be_value (write_be m u) = u) in WV; rewrite WV; exact T
      | |- _ =>
          destruct (ule_total m B) as [WL WV]; split; [exact WL|];
          change (twos_complement m z (le_value (write_le m u)));
          change (le_value (write_le m u) = u) in WV; rewrite WV; exact T
      end end.
Qed.
Lemma uitem_cons : forall k n, uitem k n <> Some [].
Proof.
  intros k n. destruct k; unfold uitem; cbn [uenc];
    unfold U8Encoder, U16beEncoder, U16leEncoder, U24beEncoder, U24leEncoder, U32beEncoder, U32leEncoder,
      U40beEncoder, U40leEncoder, U48beEncoder, U48leEncoder, U56beEncoder, U56leEncoder, U64beEncoder,
      U64leEncoder, F32beEncoder, F32leEncoder, F64beEncoder, F64leEncoder, num_encoder;
    cbn [enc_start]; unfold total_item, max_item;
    try lazymatch goal with |- context [(n <=? ?m)%N] => destruct (N.leb_spec n m); [|discriminate] end;
    cbn [enc_start bytes_encoder bytes_start bytes_enc_idle be_bytes num_enc_new bytes_enc_new];
    intros X; apply some_inj in X; apply (f_equal (@length byte)) in X;
    unfold write_be in X; rewrite ?rev_length in X; discriminate X.
Qed.
Lemma sitem_cons : forall k z, sitem k z <> Some [].
Proof.
  intros k n. destruct k; unfold sitem; cbn [senc];
    unfold I8Encoder, I16beEncoder, I16leEncoder, I32beEncoder, I32leEncoder, I64beEncoder, I64leEncoder,
      num_encoder; cbn [enc_start]; unfold total_item;
    cbn [enc_start bytes_encoder bytes_start bytes_enc_idle be_bytes num_enc_new bytes_enc_new];
    intros X; apply some_inj in X; apply (f_equal (@length byte)) in X;
    unfold write_be in X; rewrite ?rev_length in X; discriminate X.
Qed.
Lemma oapp_some : forall a b w, oapp a b = Some w -> exists x y, a = Some x /\ b = Some y /\ w = x ++ y.
Proof. intros [x|] [y|] w; cbn; try discriminate. intros [= <-]. eauto. Qed.
Lemma seq_out_some : forall I (enc : I -> option (list byte)) l w, seq_out (enc := enc) l = Some w ->
  exists ws, w = concat ws /\ Forall2 (fun i x => enc i = Some x) l ws.
Proof.
  induction l as [|i l IH]; intros w.
  - intros [= <-]. exists []. auto.
  - change (oapp (enc i) (seq_out (enc := enc) l) = Some w -> exists ws, w = concat ws /\ Forall2 (fun i x => enc i = Some x) (i :: l) ws).
    intros X. apply oapp_some in X. destruct X as (x & y & E1 & E2 & ->).
    destruct (IH _ E2) as (ws & -> & F). exists (x :: ws). auto.
Qed.
Lemma forall2_concat_nil : forall I (enc : I -> option (list byte)) l ws,
  concat ws = [] -> Forall2 (fun i x => enc i = Some x) l ws -> Forall (fun i => enc i = Some []) l.
Proof.
  intros I enc l ws E F. induction F as [|i x l ws H F IH]; auto. cbn in E.
  apply app_eq_nil in E. destruct E as [-> E]. auto.
Qed.
Lemma outp_writes :
  (forall A (c : codec A) a w, typed c a -> outp c a = Some w -> writes c a w) /\
  (forall A (p : parts A) a w, ptyped p a -> poutp p a = Some w -> pwrites p a w).
Proof.
  assert (Sq : forall A (c : codec A) (IH : forall a w, typed c a -> outp c a = Some w -> writes c a w) l ws,
    Forall (typed c) l -> Forall2 (fun i x => outp c i = Some x) l ws -> Forall2 (writes c) l ws).
  { intros A c IH l ws T F. induction F; auto. inversion T; subst. auto. }
  apply codec_parts_ind; cbn.
  - intros k n w. apply uitem_ok.
  - intros k z w. apply sitem_ok.
  - congruence.
  - congruence.
  - congruence.
  - congruence.
  - intros s w T [= <-]. now apply str_as_bytes_utf8.
  - intros _ s w T [= <-]. now apply str_as_bytes_utf8.
  - congruence.
  - intros A f g a w _. unfold mono_out. destruct (g a) as [chunks [e|]]; [discriminate|].
    intros [= <-]. eauto.
  - auto.
  - auto.
  - intros A B f g c IH b w. destruct (g b) as [a|e]; [|discriminate]. eauto.
  - auto.
  - intros A _ c IH [a|] w; [auto|congruence].
  - auto.
  - intros A n c IH a w T. unfold len_is. destruct (outp c a) as [x|] eqn:E; [|discriminate].
    destruct (N.eqb_spec (len x) n); [|discriminate]. intros [= <-]. auto.
  - intros A n c IH a w T. unfold len_le. destruct (outp c a) as [x|] eqn:E; [|discriminate].
    destruct (N.leb_spec (len x) n); [|discriminate]. intros [= <-]. auto.
  - auto.
  - auto.
  - auto.
  - intros A c IH l w T X. destruct (seq_out_some _ _ X) as (ws & -> & F). eauto.
  - intros A _ c IH l w T X. destruct (seq_out_some _ _ X) as (ws & -> & F). eauto.
  - intros A k size c IH a w [T0 T] X. apply oapp_some in X. destruct X as (x & y & E1 & E2 & ->).
    exists x, y. split; auto. split; [now apply uitem_ok|auto].
  - intros A k c IH l w [T0 T] X. apply oapp_some in X. destruct X as (x & y & E1 & E2 & ->).
    destruct (seq_out_some _ _ E2) as (ws & -> & F). exists x, ws. split; auto.
    split; [now apply uitem_ok|eauto].
  - intros A k c IH o w T X. apply oapp_some in X. destruct X as (x & y & E1 & E2 & ->).
    exists x, y. split; auto. destruct o as [a|]; (split; [apply uitem_ok; auto; destruct k; reflexivity|]); auto.
    congruence.
  - intros A B c IH c' IH' i w [T T'] X. apply oapp_some in X. destruct X as (x & y & E1 & E2 & ->).
    exists x, y. auto.
  - intros A B p IH c IH' i w [T T'] X. apply oapp_some in X. destruct X as (x & y & E1 & E2 & ->).
    exists x, y. auto.
Qed.
Lemma outp_nil_typed :
  (forall A (c : codec A) a, outp c a = Some [] -> typed c a) /\
  (forall A (p : parts A) a, poutp p a = Some [] -> ptyped p a).
Proof.
  assert (Sq : forall A (c : codec A) (IH : forall a, outp c a = Some [] -> typed c a) l,
    seq_out (enc := outp c) l = Some [] -> Forall (typed c) l).
  { intros A c IH l X. destruct (seq_out_some _ _ X) as (ws & E & F).
    pose proof (@forall2_concat_nil _ (outp c) _ _ (eq_sym E) F) as G.
    eapply Forall_impl; [|exact G]. auto. }
  assert (U : forall s, Some (str_as_bytes s) = Some [] -> Forall scalar s).
  { intros [|x s] X; [constructor|]. apply some_inj in X. cbn in X. apply app_eq_nil in X. destruct X as [X _].
    exfalso. revert X. unfold char_to_bytes. repeat destruct (_ <? _)%N; discriminate. }
  assert (O : forall a b, oapp a b = Some [] -> a = Some [] /\ b = Some []).
  { intros a b X. apply oapp_some in X. destruct X as (x & y & -> & -> & E).
    symmetry in E. apply app_eq_nil in E. destruct E as [-> ->]. auto. }
  apply codec_parts_ind; cbn; try (intros; exact I); auto.
  - intros k n X. elim (uitem_cons _ _ X).
  - intros k n X. elim (sitem_cons _ _ X).
  - intros A B f g c IH b. destruct (g b); auto.
  - intros A _ c IH [a|]; auto.
  - intros A n c IH a. unfold len_is. destruct (outp c a) as [x|] eqn:E; [|discriminate].
    destruct (len x =? n)%N; [|discriminate]. intros X. apply IH. congruence.
  - intros A n c IH a. unfold len_le. destruct (outp c a) as [x|] eqn:E; [|discriminate].
    destruct (len x <=? n)%N; [|discriminate]. intros X. apply IH. congruence.
  - intros A k size c IH a X. apply O in X. destruct X as [X _]. elim (uitem_cons _ _ X).
  - intros A k c IH a X. apply O in X. destruct X as [X _]. elim (uitem_cons _ _ X).
  - intros A k c IH a X. apply O in X. destruct X as [X _]. elim (uitem_cons _ _ X).
  - intros A B c IH c' IH' i X. apply O in X. destruct X. auto.
  - intros A B p IH c IH' i X. apply O in X. destruct X. auto.
Qed.

(** *** Every composition keeps the contract *)
Definition code_wok A (c : codec A) : Prop :=
  ewf c -> wok (encoder c) (outp c) (enc_again c) (heeds c) (enc_fresh c).
Definition part_wok A (p : parts A) : Prop :=
  pewf p -> eparts_ok (psem_enc (psem p)) /\
  wok (tuple_of_enc_parts (psem_enc (psem p))) (poutp p) (penc_again p) (pheeds p) (penc0 (psem p)).
Lemma wok_weak : forall S I (E : Encoder S I) enc again (st st' : Prop) s0,
  wok E enc again st s0 -> (st' -> st) -> wok E enc again st' s0.
Proof.
  intros S I E enc again st st' s0 (P & R & H & p) St. exists P, R. split; auto.
  eapply wsound_eq; eauto.
Qed.
Lemma wok_pair : forall S0 I0 S1 I1 (E0 : Encoder S0 I0) (E1 : Encoder S1 I1) enc0 enc1 a0 a1 t0 t1 s0 s1,
  wok E0 enc0 a0 t0 s0 -> wok E1 enc1 a1 t1 s1 ->
  wok (tuple2_encoder E0 E1) (fun i => oapp (enc0 (fst i)) (enc1 (snd i))) (a0 && a1) (t0 /\ t1) (s0, s1).
Proof.
  intros S0 I0 S1 I1 E0 E1 enc0 enc1 a0 a1 t0 t1 s0 s1 (P0 & R0 & H0 & p0) (P1 & R1 & H1 & p1).
  do 2 eexists. split; [apply (pair_wsound H0 H1)|]. cbn. auto.
Qed.
Lemma wok_map_from : forall S I T (E : Encoder S I) enc again st s0 (f : T -> I),
  wok E enc again st s0 -> wok (map_from_encoder E f) (fun t => enc (f t)) again st s0.
Proof.
  intros S I T E enc again st s0 f (P & R & H & p). do 2 eexists. split; [apply (map_from_wsound f H)|auto].
Qed.
Lemma wok_eq : forall S I (E : Encoder S I) enc enc' again st s0,
  wok E enc again st s0 -> (forall i, enc i = enc' i) -> wok E enc' again st s0.
Proof.
  intros S I E enc enc' again st s0 (P & R & H & p) St. exists P, R. split; auto.
  eapply wsound_eq; eauto.
Qed.
Lemma wok_repeat : forall S I (E : Encoder S I) enc (st st' : Prop) s0,
  wok E enc true st s0 -> (st' -> st /\ forall i, enc i <> Some []) ->
  wok (repeat_encoder E) (seq_out (enc := enc)) true st' (repeat_new s0).
Proof.
  intros S I E enc st st' s0 (P & R & H & p) St. eapply wok_weak.
  - do 2 eexists. split; [apply (repeat_wsound H)|]. cbn. auto.
  - exact St.
Qed.
Lemma wok_optional : forall S I (E : Encoder S I) enc st s0,
  wok E enc true st s0 ->
  wok (optional_encoder E) (fun o => match o with Some i => enc i | None => Some [] end) true st s0.
Proof.
  intros S I E enc st s0 (P & R & H & p). do 2 eexists. split; [apply (optional_wsound H)|auto].
Qed.
Lemma uenc_wok : forall k, wok (uenc k) (uitem k) true True num_enc_new.
Proof. intros k. do 2 eexists. split; [apply uenc_wsound|reflexivity]. Qed.
Lemma heeds_cons : forall A (c : codec A),
  (heeds c /\ forall a, typed c a -> ~ writes c a []) -> heeds c /\ forall a, outp c a <> Some [].
Proof.
  intros A c [H1 H2]. split; auto. intros a X.
  pose proof (proj1 outp_nil_typed _ c a X) as T. eapply H2; eauto. now apply outp_writes.
Qed.
Lemma term_wok : (forall A (c : codec A), code_wok c) /\ (forall A (p : parts A), part_wok p).
Proof.
  apply codec_parts_ind; unfold code_wok, part_wok, encoder, enc_fresh; cbn.
  - intros k _. apply uenc_wok.
  - intros k _. do 2 eexists. split; [apply senc_wsound|reflexivity].
  - intros _. do 2 eexists. split; [apply null_wsound|exact I].
  - intros _ _. do 2 eexists. split; [apply (bytes_wsound vec_box)|reflexivity].
  - intros _ _. do 2 eexists. split; [apply (bytes_wsound vec_box)|reflexivity].
  - intros _. do 2 eexists. split; [apply (bytes_wsound vec_box)|reflexivity].
  - intros _. do 2 eexists. split; [apply (bytes_wsound utf8_box)|reflexivity].
  - intros _ _. do 2 eexists. split; [apply (bytes_wsound utf8_box)|reflexivity].
  - intros b n _. do 2 eexists. split; [apply (pad_wsound b n)|cbn; auto].
  - intros A f g _. do 2 eexists. split; [apply (mono_wsound g)|cbn; auto].
    repeat split.
  - intros A p IH W. apply (IH W).
  - intros A B f g c IH W. apply wok_map_from with (1 := IH W).
  - intros A B f g c IH W. destruct (IH W) as (P & R & H & p).
    do 2 eexists. split; [apply (try_map_from_wsound g H)|auto].
  - intros A f g c IH W. destruct (IH W) as (P & R & H & p).
    do 2 eexists. split; [apply (map_err_wsound g H)|auto].
  - intros A b c IH [W Ea]. specialize (IH W). rewrite Ea in *. now apply wok_optional.
  - auto.
  - intros A n c IH (W & Hd & N0). destruct (IH W) as (P & R & H & p).
    do 2 eexists. split; [apply (length_wsound H Hd N0)|cbn; auto].
  - intros A n c IH W. destruct (IH W) as (P & R & H & p).
    do 2 eexists. split; [apply (max_wsound n H)|cbn; auto].
  - auto.
  - auto.
  - intros A c IH W. destruct (IH W) as (P & R & H & p).
    do 2 eexists. split; [apply (pre_wsound H)|cbn; split; [auto|reflexivity]].
  - intros A c IH [W Ea]. specialize (IH W). rewrite Ea in *.
    eapply wok_repeat; [exact IH|apply heeds_cons].
  - intros A n c IH [W Ea]. specialize (IH W). rewrite Ea in *.
    eapply wok_repeat; [exact IH|apply heeds_cons].
  - intros A k size c IH W. eapply wok_weak.
    + apply wok_map_from with (1 := wok_pair (uenc_wok k) (IH W)).
    + auto.
  - intros A k c IH [W Ea]. specialize (IH W). rewrite Ea in *. eapply wok_weak.
    + apply wok_map_from with (1 := wok_pair (uenc_wok k) (wok_repeat IH (@heeds_cons _ c))).
    + auto.
  - intros A k c IH [W Ea]. specialize (IH W). rewrite Ea in *. eapply wok_weak.
    + apply wok_map_from with (1 := wok_pair (uenc_wok k) (wok_optional IH)).
    + auto.
  - intros A B c IH c' IH' (W & W'). split; [apply ep_snoc_ok, ep_one_ok|].
    apply wok_pair with (1 := IH W) (2 := IH' W').
  - intros A B p IH c IH' (W & W'). destruct (IH W) as [OK (P0 & R0 & H0 & p0)].
    destruct (IH' W') as (P1 & R1 & H1 & p1).
    split; [now apply ep_snoc_ok|].
    do 2 eexists. split; [apply (snoc_wsound OK H0 H1)|cbn; auto].
Qed.

(** ** Every item that has an encoding is encoded *)
Definition wfmt {A} (c : codec A) : format A := fun w a => writes c a w /\ fits w.
Definition pwfmt {A} (p : parts A) : format A := fun w a => pwrites p a w /\ fits w.
Definition code_able A (c : codec A) : Prop :=
  able c -> enc_ok (encoder c) (wfmt c) (enc_fresh c) (enc_again c).
Definition part_able A (p : parts A) : Prop :=
  pable p -> eparts_ok (psem_enc (psem p)) /\
  enc_ok (tuple_of_enc_parts (psem_enc (psem p))) (pwfmt p) (penc0 (psem p)) (penc_again p).
Lemma fits_app : forall a b, fits (a ++ b) -> fits a /\ fits b.
Proof. intros a b. unfold fits. rewrite len_app. lia. Qed.
Lemma seq_wfmt : forall A (c : codec A) l ws, fits (concat ws) -> Forall2 (writes c) l ws -> eseq_fmt (wfmt c) (concat ws) l.
Proof.
  intros A c l ws Ft F. split; auto. exists ws. split; auto. revert Ft.
  induction F as [|i x l ws H F IH]; intros Ft; constructor; cbn in Ft; apply fits_app in Ft; destruct Ft.
  - split; auto.
  - auto.
Qed.
Lemma term_able : (forall A (c : codec A), code_able c) /\ (forall A (p : parts A), part_able p).
Proof.
  apply codec_parts_ind; unfold code_able, part_able, encoder, enc_fresh; cbn.
  - intros k _. eapply enc_ok_sub; [apply unum_enc_ok|]. intros w i [H _]; exact H.
  - intros k _. eapply enc_ok_1 with (P := @bytes_eidle _); [|reflexivity|apply snum_rests].
    eapply encodes_sub; [apply snum_enc|..]; auto. intros w i [H _]; exact H.
  - intros _. eapply enc_ok_sub; [eapply enc_ok_1; [apply null_encodes|exact I|apply null_rests]|].
    intros w i [H _]; exact H.
  - intros n _. apply bytes_enc_ok. intros w i [E L]; auto.
  - intros n _. apply bytes_enc_ok. intros w i [E L]; auto.
  - intros _. apply bytes_enc_ok. intros w i [E L]; auto.
  - intros _. apply utf8_enc_ok. auto.
  - intros n _. apply utf8_enc_ok. intros w i [E L]; auto.
  - intros b n N0.
    exists (fun st => ln_inner st = None /\ ln_expected st = N.of_nat n /\ ln_remaining st = N.of_nat n),
      (fun st => ln_inner st = None /\ ln_remaining st = 0%N /\ ln_expected st = N.of_nat n).
    split; [|split; [auto|discriminate]].
    intros w i [E Ft]. cbn in E. subst w.
    assert (L : (N.of_nat n <= isize_max)%N) by (unfold fits, len in Ft; now rewrite repeat_length in Ft).
    exists 0. intros [s0 ex rm] (R0 & R1 & R2). cbn in R0, R1, R2. subst.
    intros fuel _. cbn. rewrite N.eqb_refl.
    eexists; split; [reflexivity|]. destruct (pad_emits b N0 L) as (R & H & r).
    exists R; split; auto. destruct H; constructor; auto.
  - intros A f g _. eapply enc_ok_1 with (P := mono_eidle); [|cbn; repeat split|apply mono_rests].
    eapply encodes_sub; [apply mono_encodes|..]; auto.
    intros w i ((chunks & E1 & E2) & L). exists chunks; auto.
  - intros A p IH W. destruct (IH W) as [_ H]. exact H.
  - intros A B f g c IH W. eapply cenc_map; [apply (IH W)|]. intros w t H; exact H.
  - intros A B f g c IH W. destruct (IH W) as (P & Q & H & K & HA). exists P, Q; split; [|split; auto].
    eapply encodes_sub; [apply (try_map_from_encodes g H)|..]; auto.
    intros w t ((a & E1 & E2) & L). exists a. split; [auto|split; auto].
  - intros A f g c IH W. destruct (IH W) as (P & Q & H & K & HA). exists P, Q; split; [|split; auto].
    + apply map_err_encodes; auto.
    + intros Ea. destruct (HA Ea). split; auto. apply map_err_rests; auto.
  - intros A omitted c IH [W Ea]. specialize (IH W). rewrite Ea in *.
    eapply enc_ok_sub; [apply cenc_optional; eauto|]. intros w [a|] [H L]; [split|]; auto.
  - intros A n c IH W. exact (IH W).
  - intros A n c IH (W & Ea & N0). specialize (IH W). rewrite Ea in *.
    destruct (enc_ok_again IH) as (P & H1 & H2 & H3).
    exists (fun st => P (ln_inner st) /\ ln_remaining st = n /\ ln_expected st = n),
           (fun st => P (ln_inner st) /\ ln_remaining st = 0%N /\ ln_expected st = n).
    split; [|split; [cbn; auto|discriminate]].
    eapply encodes_sub; [apply elength_encodes; eauto|..]; auto. intros w i [[H L] Ft]. split; [split|]; auto.
  - intros A n c IH [W L]. destruct (IH W) as (P & Q & H & K & HA).
    exists (fun st => P (mx_inner st) /\ mx_consumed st = 0%N /\ mx_max st = n),
           (fun st => Q (mx_inner st) /\ mx_consumed st = 0%N /\ mx_max st = n).
    split; [|split; [cbn; auto|]].
    + eapply encodes_sub; [apply emax_encodes; eauto|..]; auto. intros w i [[X Y] Ft]. split; [split|]; auto.
    + intros Ea. destruct (HA Ea). split; [apply emax_rests; auto|]. intros s (R0 & R1 & R2); auto.
  - intros A c IH W. exact (IH W).
  - intros A c IH W. exact (IH W).
  - intros A c IH [W Ea]. specialize (IH W). rewrite Ea in *.
    destruct (enc_ok_again IH) as (P & H1 & H2 & H3).
    eapply enc_ok_1; [apply pre_encodes; eauto|split; cbn; [auto|reflexivity]|apply pre_rests].
  - intros A c IH (W & Ea & NE). specialize (IH W). rewrite Ea in *.
    eapply enc_ok_sub; [apply cenc_repeat; [eauto|]|].
    + intros w i [X _] ->. eapply NE; eauto.
    + intros w l [(ws & -> & F) Ft]. now apply seq_wfmt.
  - intros A n c IH (W & Ea & NE). specialize (IH W). rewrite Ea in *.
    eapply enc_ok_sub; [apply cenc_repeat; [eauto|]|].
    + intros w i [X _] ->. eapply NE; eauto.
    + intros w l [(ws & -> & F) Ft]. now apply seq_wfmt.
  - intros A k size c IH W. specialize (IH W).
    eapply cenc_map; [apply (cenc_pair (unum_enc_ok k) IH)|].
    intros w t [(w0 & w1 & -> & Nb & Wc) Ft]. split; auto. exists w0, w1; cbn.
    apply fits_app in Ft. destruct Ft. split; auto. split; auto. split; auto.
  - intros A k c IH (W & Ea & NE). specialize (IH W). rewrite Ea in *.
    assert (NE' : forall w i, wfmt c w i -> w <> []) by (intros w i [X _] ->; eapply NE; eauto).
    eapply cenc_map; [apply (cenc_pair (unum_enc_ok k) (cenc_repeat IH NE'))|].
    intros w t [(w0 & ws & -> & Nb & F) Ft]. split; auto. exists w0, (concat ws); cbn.
    apply fits_app in Ft. destruct Ft. split; auto. split; auto. now apply seq_wfmt.
  - intros A k c IH (W & Ea). specialize (IH W). rewrite Ea in *.
    eapply cenc_map; [apply (cenc_pair (unum_enc_ok k) (cenc_optional IH))|].
    intros w t [(w0 & w1 & -> & X) Ft]. split; auto. exists w0, w1; cbn.
    apply fits_app in Ft. destruct Ft. destruct t; destruct X; auto. split; auto. split; auto. split; auto.
  - intros A B c IH c' IH' (W & W'). split; [apply ep_snoc_ok, ep_one_ok|].
    eapply enc_ok_sub; [apply (cenc_pair (IH W) (IH' W'))|].
    intros w i [(w0 & w1 & -> & X & Y) Ft]. split; auto. exists w0, w1.
    apply fits_app in Ft. destruct Ft. split; auto. split; split; auto.
  - intros A B p IH c IH' (W & W'). destruct (IH W) as [OK (P0 & Q0 & H0 & K0 & A0)].
    destruct (IH' W') as (P1 & Q1 & H1 & K1 & A1).
    split; [now apply ep_snoc_ok|].
    exists (fun s => P0 (fst s) /\ P1 (snd s)), (fun s => Q0 (fst s) /\ Q1 (snd s)).
    split; [|split; [auto|]].
    + eapply encodes_sub; [apply snoc_encodes; eauto|..]; auto.
      intros w i [(w0 & w1 & -> & X & Y) Ft]. split; auto. exists w0, w1.
      apply fits_app in Ft. destruct Ft. split; auto. split; split; auto.
    + intros E. apply andb_prop in E. destruct E as [Ea Eb]. destruct A0, A1; auto.
      split; [apply snoc_rests; auto|]. intros s [T0 T1]. auto.
Qed.

(** ** An item has one encoding *)
Lemma num_bytes_fun : forall k n w w', num_bytes k n w -> num_bytes k n w' -> w = w'.
Proof.
  intros k n w w' [L V] [L' V']. rewrite <- L' in L. rewrite <- V' in V.
  destruct k; cbn in V; first [now apply be_value_inj|now apply le_value_inj].
Qed.
Lemma twos_fun : forall m z u u', twos_complement m z u -> twos_complement m z u' -> u = u'.
Proof. intros m z u u' (A1 & A2 & A3) (B1 & B2 & B3). lia. Qed.
Lemma writes_fun :
  (forall A (c : codec A) a w w', writes c a w -> writes c a w' -> w = w') /\
  (forall A (p : parts A) a w w', pwrites p a w -> pwrites p a w' -> w = w').
Proof.
  assert (Sq : forall A (c : codec A) (IH : forall a w w', writes c a w -> writes c a w' -> w = w') l ws ws',
    Forall2 (writes c) l ws -> Forall2 (writes c) l ws' -> ws = ws').
  { intros A c IH l ws ws' F. revert ws'. induction F; intros ws' F'; inversion F'; subst; auto.
    f_equal; eauto. }
  apply codec_parts_ind; cbn; try congruence; auto.
  - intros. eapply num_bytes_fun; eauto.
  - intros k z w w' [L V] [L' V']. pose proof (twos_fun V V') as E. rewrite <- L' in L.
    destruct k; cbn in E; first [now apply be_value_inj|now apply le_value_inj].
  - intros s w w' U U'. apply utf8_unique in U, U'. congruence.
  - intros _ s w w' U U'. apply utf8_unique in U, U'. congruence.
  - intros A f g a w w' (ch & E & ->) (ch' & E' & ->). congruence.
  - intros A B f g c IH b. apply IH.
  - intros A B f g c IH b w w' (a & E & W) (a' & E' & W'). assert (a' = a) by congruence. subst. eauto.
  - intros A _ c IH [a|] w w'; [eauto|congruence].
  - intros A n c IH a w w' [W _] [W' _]. eauto.
  - intros A n c IH a w w' [W _] [W' _]. eauto.
  - intros A c IH l w w' (ws & -> & F) (ws' & -> & F'). f_equal. eauto.
  - intros A _ c IH l w w' (ws & -> & F) (ws' & -> & F'). f_equal. eauto.
  - intros A k size c IH a w w' (w0 & w1 & -> & N1 & W1) (v0 & v1 & -> & N2 & W2).
    f_equal; [eapply num_bytes_fun; eauto|eauto].
  - intros A k c IH l w w' (w0 & w1 & -> & N1 & W1) (v0 & v1 & -> & N2 & W2).
    f_equal; [eapply num_bytes_fun; eauto|f_equal; eauto].
  - intros A k c IH [a|] w w' (w0 & w1 & -> & N1 & W1) (v0 & v1 & -> & N2 & W2);
      f_equal; [eapply num_bytes_fun; eauto|eauto|eapply num_bytes_fun; eauto|congruence].
  - intros A B c IH c' IH' i w w' (w0 & w1 & -> & X & Y) (v0 & v1 & -> & X' & Y'). f_equal; eauto.
  - intros A B p IH c IH' i w w' (w0 & w1 & -> & X & Y) (v0 & v1 & -> & X' & Y'). f_equal; eauto.
Qed.
(** What round-trips is a special case. *)
Lemma num_bytes_typed : forall k n w, num_bytes k n w -> num_typed k n.
Proof.
  intros k n w [L <-]. unfold num_typed.
  assert (B : (uvalue k w < 256 ^ N.of_nat (uwidth k))%N).
  { rewrite <- L. destruct k; cbn [uvalue]; first [apply be_value_lt|apply le_value_lt]. }
  eapply N.lt_le_trans; [exact B|]. destruct k; vm_compute; discriminate.
Qed.
Lemma wire_writes :
  (forall A (c : codec A) w a, wire c w a -> typed c a /\ writes c a w) /\
  (forall A (p : parts A) w a, pwire p w a -> ptyped p a /\ pwrites p a w).
Proof.
  assert (Sq : forall A (c : codec A) (IH : forall w a, wire c w a -> typed c a /\ writes c a w) l ws,
    Forall2 (wire c) ws l -> Forall (typed c) l /\ Forall2 (writes c) l ws).
  { intros A c IH l ws F. induction F as [|x i ws l H F [IH1 IH2]]; auto. destruct (IH _ _ H). auto. }
  apply codec_parts_ind; cbn.
  - intros k w n H. split; auto. eapply num_bytes_typed; eauto.
  - intros k w z [L H]. split; [apply H|auto].
  - auto.
  - intros n w b (E & _). auto.
  - intros n w b (E & _). auto.
  - intros w b (E & _). auto.
  - intros w s (U & _). split; auto. eapply utf8_scalar; eauto.
  - intros n w s (U & _). split; auto. eapply utf8_scalar; eauto.
  - intros b n w u (E & _). auto.
  - intros A f g w a (_ & _ & H). auto.
  - auto.
  - intros A B f g c IH w b [H _]. auto.
  - intros A B f g c IH w b (a & E & _ & H). rewrite E. destruct (IH _ _ H). eauto.
  - auto.
  - intros A o c IH w [a|] [_ H]; auto.
  - intros A n c IH w a [H _]. auto.
  - intros A n c IH w a [H L]. destruct (IH _ _ H). auto.
  - intros A n c IH w a [H L]. destruct (IH _ _ H). auto.
  - auto.
  - intros A c IH w a [H _]. auto.
  - auto.
  - intros A c IH w l (_ & ws & -> & F). destruct (Sq _ c IH _ _ F). eauto.
  - intros A n c IH w l (_ & (ws & -> & F) & _). destruct (Sq _ c IH _ _ F). eauto.
  - intros A k size c IH w a (_ & w0 & w1 & -> & H & E & Nb). destruct (IH _ _ H). rewrite E in Nb.
    split; [split; auto; eapply num_bytes_typed; eauto|]. exists w0, w1. auto.
  - intros A k c IH w l (_ & w0 & w1 & -> & (ws & -> & F) & Nb). destruct (Sq _ c IH _ _ F).
    split; [split; auto; eapply num_bytes_typed; eauto|]. exists w0, ws. auto.
  - intros A k c IH w [a|] (_ & w0 & w1 & -> & Nb & H).
    + destruct (IH _ _ H). split; auto. exists w0, w1. auto.
    + split; auto. exists w0, w1. auto.
  - intros A B c IH c' IH' w i (_ & w0 & w1 & -> & H & H'). destruct (IH _ _ H), (IH' _ _ H').
    split; auto. exists w0, w1. auto.
  - intros A B p IH c IH' w i (_ & w0 & w1 & -> & H & H'). destruct (IH _ _ H), (IH' _ _ H').
    split; auto. exists w0, w1. auto.
Qed.
