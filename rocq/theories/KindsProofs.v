(** * Proofs for C76. *)
From Coq Require Import Lia ZifyBool ZifyNat ZifyN.
From Verif Require Export Kinds UniverseProofs.
Set Implicit Arguments.

(** ** Decoders *)
Record dkinds {S I} (D : Decoder S I) (Kd : Eos -> ErrorKind -> Prop) (Ki Ka : ErrorKind -> Prop) : Prop :=
  { dk_decode : forall fuel s buf e s' k, dec_decode D fuel s buf e = (s', Err k) -> Kd e k;
    dk_idle : forall s s' k, dec_idle D s = true -> dec_finish D s = (s', Err k) -> Ki k;
    dk_any : forall s s' k, dec_finish D s = (s', Err k) -> Ka k;
    dk_req : forall s k, dec_req D s <> Err k }.
Record pdkinds {S I} (P : DecParts S I) (Kd : Eos -> ErrorKind -> Prop) (Ki Ka : ErrorKind -> Prop) : Prop :=
  { pk_decode : forall fuel s off buf e s' k, dp_decode P fuel s off buf e = TRet s' (Err k) -> Kd e k;
    pk_idle : forall s s' k, dp_idle P s = true -> dp_finish P s = (s', Err k) -> Ki k;
    pk_any : forall s s' k, dp_finish P s = (s', Err k) -> Ka k;
    pk_req : forall q s k, dp_req P q s <> Err k }.

Lemma rcast_err : forall A B (r : res A) k, @rcast A B r = Err k -> r = Err k.
Proof. intros A B [a|k'| |] k; cbn; congruence. Qed.
Lemma rmap_is_err : forall A B (f : A -> B) r k, rmap f r = Err k -> r = Err k.
Proof. intros A B f [a|k'| |] k; cbn; congruence. Qed.

Lemma try_kind : forall S I (D : Decoder S I) Kd Ki Ka, dkinds D Kd Ki Ka ->
  forall fuel s off buf e s' k, try_decode D fuel s off buf e = TRet s' (Err k) -> Kd e k.
Proof.
  intros S I D Kd Ki Ka H fuel s off buf e s' k. unfold try_decode.
  destruct (dec_idle D s); [discriminate|]. destruct (slice_from off buf); [|discriminate].
  destruct (dec_decode D fuel s l e) as [s1 [n|k1| |]] eqn:X; try discriminate.
  - destruct (dec_idle D s1); discriminate.
  - intros [= <- <-]. eapply dk_decode; eauto.
Qed.
Lemma try_go_idle : forall S I (D : Decoder S I) fuel s off buf e s' o,
  try_decode D fuel s off buf e = TGo s' o -> dec_idle D s' = true.
Proof.
  intros S I D fuel s off buf e s' o. unfold try_decode.
  destruct (dec_idle D s) eqn:id; [intros [= <- <-]; auto|]. destruct (slice_from off buf); [|discriminate].
  destruct (dec_decode D fuel s l e) as [s1 [n|k1| |]] eqn:X; try discriminate.
  destruct (dec_idle D s1) eqn:id1; [|discriminate]. intros [= <- <-]; auto.
Qed.
Lemma dkinds_sub : forall S I (D : Decoder S I) Kd Ki Ka (Kd' : Eos -> ErrorKind -> Prop) (Ki' Ka' : ErrorKind -> Prop), dkinds D Kd Ki Ka ->
  (forall e k, Kd e k -> Kd' e k) -> (forall k, Ki k -> Ki' k) -> (forall k, Ka k -> Ka' k) ->
  dkinds D Kd' Ki' Ka'.
Proof. intros S I D Kd Ki Ka Kd' Ki' Ka' [A B C R] X Y Z. split; eauto. Qed.

Lemma copy_kinds : forall B (BX : ByteBox B),
  dkinds (copy_decoder BX) eof (fun _ => False) (fun k => k = IncompleteDecoding).
Proof.
  intros B BX. split.
  - intros fuel s buf e s' k. cbn. unfold copy_decode. destruct (usize_sub _ _); [|discriminate].
    destruct (negb _ && is_reached e) eqn:Q; [|discriminate]. intros [= _ <-]. split; auto.
    apply andb_prop in Q. tauto.
  - intros s s' k. cbn. unfold copy_finish. intros ->. discriminate.
  - intros s s' k. cbn. unfold copy_finish. destruct (_ =? _); congruence.
  - intros s k. cbn. destruct (usize_sub _ _); discriminate.
Qed.
Lemma num_kinds : forall T (f : list byte -> T),
  dkinds (num_decoder f) eof (fun _ => False) (fun k => k = IncompleteDecoding).
Proof.
  intros T f. destruct (copy_kinds vec_box) as [A B C R]. split.
  - exact A.
  - intros s s' k id. cbn -[copy_decoder]. destruct (dec_finish (copy_decoder vec_box) s) as [s1 r] eqn:X.
    intros [= <- E]. apply rmap_is_err in E. subst. eapply B; eauto.
  - intros s s' k. cbn -[copy_decoder]. destruct (dec_finish (copy_decoder vec_box) s) as [s1 r] eqn:X.
    intros [= <- E]. apply rmap_is_err in E. subst. eapply C; eauto.
  - exact R.
Qed.
Lemma bytes_kinds : forall B (BX : ByteBox B),
  dkinds (bytes_decoder BX) (fun e k => k = DecoderTerminated \/ eof e k)
    (fun k => k = DecoderTerminated) (fun k => k = DecoderTerminated \/ k = IncompleteDecoding).
Proof.
  intros B BX. split.
  - intros fuel s buf e s' k. cbn. unfold bytes_decode. destruct (bd_bytes s); [|intros [= _ <-]; auto].
    destruct (usize_sub _ _); [|discriminate].
    destruct (negb _ && is_reached e) eqn:Q; [|discriminate]. intros [= _ <-]. right. split; auto.
    apply andb_prop in Q. tauto.
  - intros s s' k. cbn. unfold bytes_finish. intros ->. destruct (bd_bytes s); congruence.
  - intros s s' k. cbn. unfold bytes_finish. destruct (_ =? _); [destruct (bd_bytes s)|]; intros; try discriminate; intuition congruence.
  - intros s k. cbn. destruct (bd_bytes s); [|discriminate]. destruct (usize_sub _ _); discriminate.
Qed.
Lemma rem_kinds : dkinds rem_decoder (fun _ _ => False) (fun _ => False) (fun k => k = IncompleteDecoding).
Proof.
  split.
  - intros fuel s buf e s' k. cbn. unfold rem_decode. destruct (rm_eos s); [discriminate|].
    destruct (bc_to_u64 _); [destruct (_ <=? _)%N|]; discriminate.
  - intros s s' k. cbn. unfold rem_finish. intros ->. discriminate.
  - intros s s' k. cbn. unfold rem_finish. destruct (rm_eos s); congruence.
  - intros s k. cbn. discriminate.
Qed.
Lemma null_kinds : dkinds null_decoder (fun _ _ => False) (fun _ => False) (fun _ => False).
Proof. split; cbn; discriminate. Qed.
Lemma utf8_kinds : forall S (D : Decoder S (list byte)) Kd Ki Ka, dkinds D Kd Ki Ka ->
  dkinds (utf8_decoder D) Kd (fun k => k = InvalidInput \/ Ki k) (fun k => k = InvalidInput \/ Ka k).
Proof.
  intros S D Kd Ki Ka [A B C R]. split; auto.
  - intros s s' k id. cbn. destruct (dec_finish D s) as [s1 [b|k1| |]] eqn:X; cbn; try discriminate.
    + destruct (str_from_utf8 b); [discriminate|]. intros [= <- <-]; auto.
    + intros [= <- <-]. right; eapply B; eauto.
  - intros s s' k. cbn. destruct (dec_finish D s) as [s1 [b|k1| |]] eqn:X; cbn; try discriminate.
    + destruct (str_from_utf8 b); [discriminate|]. intros [= <- <-]; auto.
    + intros [= <- <-]. right; eapply C; eauto.
Qed.
Lemma pad_kinds : dkinds pad_decoder (fun _ k => k = InvalidInput) (fun _ => False) (fun k => k = IncompleteDecoding).
Proof.
  split.
  - intros fuel s buf e s' k. cbn. unfold pad_decode. destruct (pd_eos s); [discriminate|].
    destruct (pd_expected s); [|discriminate]. destruct (forallb _ _); congruence.
  - intros s s' k. cbn. intros ->. discriminate.
  - intros s s' k. cbn. destruct (pd_eos s); congruence.
  - intros s k. cbn. discriminate.
Qed.
Lemma mono_kinds : forall I (f : MonoDecode I),
  dkinds (mono_decoder f) (fun e k => is_reached e = true /\ exists w n, f w = (inr k, n))
    (fun _ => False) (fun k => k = IncompleteDecoding).
Proof.
  intros I f. split.
  - intros fuel s buf e s' k. cbn. unfold mono_decode. destruct (is_reached e); [|discriminate].
    destruct (f (md_buf s ++ buf)) as [[i|k1] n] eqn:X; [discriminate|]. intros [= <- <-]. eauto.
  - intros s s' k. cbn. destruct (md_item s); discriminate.
  - intros s s' k. cbn. destruct (md_item s); congruence.
  - intros s k. cbn. discriminate.
Qed.
Lemma map_kinds : forall S I T (D : Decoder S I) (f : I -> T) Kd Ki Ka, dkinds D Kd Ki Ka ->
  dkinds (map_decoder D f) Kd Ki Ka.
Proof.
  intros S I T D f Kd Ki Ka [A B C R]. split; auto.
  - intros s s' k id. cbn. destruct (dec_finish D s) as [s1 r] eqn:X.
    intros [= <- E]. apply rmap_is_err in E. subst. eapply B; eauto.
  - intros s s' k. cbn. destruct (dec_finish D s) as [s1 r] eqn:X.
    intros [= <- E]. apply rmap_is_err in E. subst. eapply C; eauto.
Qed.
Lemma try_map_kinds : forall S I T (D : Decoder S I) (f : I -> T + ErrorKind) Kd Ki Ka, dkinds D Kd Ki Ka ->
  dkinds (try_map_decoder D f) Kd (fun k => Ki k \/ exists a, f a = inr k) (fun k => Ka k \/ exists a, f a = inr k).
Proof.
  intros S I T D f Kd Ki Ka [A B C R]. split; auto.
  - intros s s' k id. cbn. destruct (dec_finish D s) as [s1 [b|k1| |]] eqn:X; cbn; try discriminate.
    + destruct (f b) eqn:Y; [discriminate|]. intros [= <- <-]; eauto.
    + intros [= <- <-]. left; eapply B; eauto.
  - intros s s' k. cbn. destruct (dec_finish D s) as [s1 [b|k1| |]] eqn:X; cbn; try discriminate.
    + destruct (f b) eqn:Y; [discriminate|]. intros [= <- <-]; eauto.
    + intros [= <- <-]. left; eapply C; eauto.
Qed.
Lemma rmap_err_is : forall A f (r : res A) k, rmap_err f r = Err k -> exists k0, r = Err k0 /\ k = f k0.
Proof. intros A f [a|k'| |] k; cbn; intros E; try discriminate. injection E as <-; eauto. Qed.
Lemma map_err_kinds : forall S I (D : Decoder S I) f Kd Ki Ka, dkinds D Kd Ki Ka ->
  dkinds (map_err_decoder D f) (fun e k => exists k0, Kd e k0 /\ k = f k0)
    (fun k => exists k0, Ki k0 /\ k = f k0) (fun k => exists k0, Ka k0 /\ k = f k0).
Proof.
  intros S I D f Kd Ki Ka [A B C R]. split; auto.
  - intros fuel s buf e s' k. cbn. destruct (dec_decode D fuel s buf e) as [s1 r] eqn:X.
    intros [= <- E]. apply rmap_err_is in E. destruct E as (k0 & -> & ->). eauto.
  - intros s s' k id. cbn. destruct (dec_finish D s) as [s1 r] eqn:X.
    intros [= <- E]. apply rmap_err_is in E. destruct E as (k0 & -> & ->). eauto.
  - intros s s' k. cbn. destruct (dec_finish D s) as [s1 r] eqn:X.
    intros [= <- E]. apply rmap_err_is in E. destruct E as (k0 & -> & ->). eauto.
Qed.
Lemma omit_kinds : forall S I (D : Decoder S I) Kd Ki Ka, dkinds D Kd Ki Ka ->
  dkinds (omit_decoder D) Kd Ki Ka.
Proof.
  intros S I D Kd Ki Ka [A B C R]. split.
  - intros fuel [s o] buf e s' k. cbn. destruct o; [discriminate|].
    destruct (dec_decode D fuel s buf e) as [s1 r] eqn:X. intros [= <- ->]. eauto.
  - intros [s o] s' k. cbn. destruct o; [discriminate|]. cbn. intros id.
    destruct (dec_finish D s) as [s1 r] eqn:X. intros [= <- E]. apply rmap_is_err in E. subst. eauto.
  - intros [s o] s' k. cbn. destruct o; [discriminate|]. cbn.
    destruct (dec_finish D s) as [s1 r] eqn:X. intros [= <- E]. apply rmap_is_err in E. subst. eauto.
  - intros [s o] k. cbn. destruct o; [discriminate|auto].
Qed.
Lemma length_kinds : forall S I (D : Decoder S I) Kd Ki Ka, dkinds D Kd Ki Ka ->
  dkinds (length_decoder D)
    (fun e k => (k = UnexpectedEos /\ exists r, remaining_bytes e = Finite r) \/
                exists r, Kd (eos_with_remaining (Finite r)) k)
    (fun k => k = IncompleteDecoding \/ Ki k) (fun k => k = IncompleteDecoding \/ Ka k).
Proof.
  intros S I D Kd Ki Ka [A B C R]. split.
  - intros fuel st buf e s' k. cbn. unfold length_decode.
    assert (GO : forall b r0, (let '(s', r) := dec_decode D fuel (ln_inner st) b (eos_with_remaining (Finite r0)) in
      match r with
      | Ok size => match u64_sub (ln_remaining st) (N.of_nat size) with
          | Some rem => (mkLength s' (ln_expected st) rem, Ok size)
          | None => (mkLength s' (ln_expected st) (ln_remaining st), Panic) end
      | r' => (mkLength s' (ln_expected st) (ln_remaining st), r') end) = (s', Err k) ->
      exists r, Kd (eos_with_remaining (Finite r)) k).
    { intros b r0. destruct (dec_decode D fuel (ln_inner st) b _) as [s1 [n|k1| |]] eqn:X; try discriminate.
      - destruct (u64_sub _ _); discriminate.
      - intros [= <- <-]. eauto. }
    destruct (bc_to_u64 (remaining_bytes e)) eqn:Q.
    + destruct (u64_add n (len buf)); [|discriminate]. destruct (_ <=? _)%N; [intros X; right; eapply GO, X|].
      intros [= <- <-]. left. split; auto. destruct (remaining_bytes e); try discriminate. eauto.
    + intros X. right. eapply GO, X.
  - intros st s' k id. cbn in *. destruct (_ =? _)%N.
    + destruct (dec_finish D (ln_inner st)) as [s1 r] eqn:X. intros [= <- ->]. right; eauto.
    + intros [= <- <-]; auto.
  - intros st s' k. cbn in *. destruct (_ =? _)%N.
    + destruct (dec_finish D (ln_inner st)) as [s1 r] eqn:X. intros [= <- ->]. right; eauto.
    + intros [= <- <-]; auto.
  - intros s k. cbn. discriminate.
Qed.
Lemma max_kinds : forall S I (D : Decoder S I) Kd Ki Ka, dkinds D Kd Ki Ka ->
  dkinds (max_decoder D) (fun e k => k = InvalidInput \/ Kd e k) Ki Ka.
Proof.
  intros S I D Kd Ki Ka [A B C R]. split.
  - intros fuel st buf e s' k. cbn. unfold max_decode, max_check.
    assert (GO : (let '(s', r) := dec_decode D fuel (mx_inner st) buf e in
      match r with
      | Ok size => match u64_add (mx_consumed st) (N.of_nat size) with
          | Some c => (mkMax s' c (mx_max st), Ok size)
          | None => (mkMax s' (mx_consumed st) (mx_max st), Panic) end
      | r' => (mkMax s' (mx_consumed st) (mx_max st), r') end) = (s', Err k) -> Kd e k).
    { destruct (dec_decode D fuel (mx_inner st) buf e) as [s1 [n|k1| |]] eqn:X; try discriminate.
      - destruct (u64_add _ _); discriminate.
      - intros [= <- <-]. eauto. }
    destruct (remaining_bytes e).
    + destruct (u64_sub _ _); [|discriminate]. destruct (u64_add _ n); [|discriminate].
      destruct (_ <=? _)%N; [auto|]. intros [= <- <-]; auto.
    + intros [= <- <-]; auto.
    + destruct (u64_sub _ _); [|discriminate]. destruct (_ <=? _)%N; [auto|]. intros [= <- <-]; auto.
  - intros st s' k id. cbn in *. destruct (dec_finish D (mx_inner st)) as [s1 r] eqn:X. intros [= <- ->]. eauto.
  - intros st s' k. cbn in *. destruct (dec_finish D (mx_inner st)) as [s1 r] eqn:X. intros [= <- ->]. eauto.
  - intros s k. cbn. auto.
Qed.
Lemma peek_kinds : forall S I (D : Decoder S I) Kd Ki Ka, dkinds D Kd Ki Ka ->
  dkinds (peek_decoder D) (fun e k => Kd e k \/ Ki k) (fun _ => False) (fun k => k = IncompleteDecoding).
Proof.
  intros S I D Kd Ki Ka [A B C R]. split.
  - intros fuel [s o] buf e s' k. cbn. unfold peek_decode. cbn. destruct o; [discriminate|].
    destruct (dec_decode D fuel s buf e) as [s1 [n|k1| |]] eqn:X; try discriminate.
    + destruct (dec_idle D s1) eqn:id; [|discriminate].
      destruct (dec_finish D s1) as [s2 [i|k1| |]] eqn:Y; try discriminate. intros [= <- <-]. eauto.
    + intros [= <- <-]. eauto.
  - intros [s o] s' k. cbn. destruct o; discriminate.
  - intros [s o] s' k. cbn. destruct o; congruence.
  - intros [s o] k. cbn. destruct o; [discriminate|auto].
Qed.
Lemma maybe_kinds : forall S I (D : Decoder S I) Kd Ki Ka, dkinds D Kd Ki Ka ->
  dkinds (maybe_decoder D) (fun e k => Kd e k \/ Kd (eos_new false) k) Ki Ka.
Proof.
  intros S I D Kd Ki Ka [A B C R]. split.
  - intros fuel [s o] buf e s' k. cbn -[eos_new]. unfold maybe_decode. cbn -[eos_new].
    set (e' := if negb o && (length buf =? 0) && is_reached e then eos_new false else e).
    assert (E : e' = e \/ e' = eos_new false) by (unfold e'; destruct (negb o && _ && _); auto).
    destruct (dec_decode D fuel s buf e') as [s1 [n|k1| |]] eqn:X; try discriminate.
    intros [= <- <-]. apply A in X. destruct E as [->| ->]; auto.
  - intros st s' k id. cbn in *. destruct (dec_finish D (my_inner st)) as [s1 r] eqn:X. intros [= <- ->]. eauto.
  - intros st s' k. cbn in *. destruct (dec_finish D (my_inner st)) as [s1 r] eqn:X. intros [= <- ->]. eauto.
  - intros s k. cbn. auto.
Qed.
Lemma collect_kinds : forall S I (D : Decoder S I) Kd Ki Ka, dkinds D Kd Ki Ka ->
  dkinds (collect_decoder D) (fun e k => Kd e k \/ Ki k) (fun _ => False) (fun k => k = IncompleteDecoding).
Proof.
  intros S I D Kd Ki Ka H. pose proof H as [A B C R]. split.
  - intros fuel st buf e s' k. cbn. destruct (cl_eos st); [discriminate|].
    assert (GO : forall n s items off, collect_loop D n fuel s items off buf e = (s', Err k) -> Kd e k \/ Ki k).
    { induction n as [|n IH]; intros s items off; cbn [collect_loop]; (destruct (_ <? _); [|discriminate]); [discriminate|].
      destruct (try_decode D fuel s off buf e) as [s1 o1|s1 r] eqn:X.
      - apply try_go_idle in X. destruct (dec_finish D s1) as [s2 [i|k1| |]] eqn:Y; try discriminate; [apply IH|].
        intros [= <- <-]. eauto.
      - intros [= <- ->]. left. eapply try_kind; eauto. }
    apply GO.
  - intros st s' k. cbn. intros ->. discriminate.
  - intros st s' k. cbn. destruct (cl_eos st); congruence.
  - intros s k. cbn. destruct (cl_eos s); [discriminate|auto].
Qed.
Lemma collectn_kinds : forall S I (D : Decoder S I) Kd Ki Ka, dkinds D Kd Ki Ka ->
  dkinds (collectn_decoder D) (fun e k => eof e k \/ Kd e k \/ Ki k) (fun _ => False) (fun k => k = IncompleteDecoding).
Proof.
  intros S I D Kd Ki Ka H. pose proof H as [A B C R]. split.
  - intros fuel st buf e s' k. cbn.
    assert (GO : forall n s items off, collectn_loop D fuel n s items off buf e = (s', Err k) -> eof e k \/ Kd e k \/ Ki k).
    { induction n as [|n IH]; intros s items off; cbn [collectn_loop Nat.eqb negb andb]; [discriminate|].
      destruct (_ <? _).
      - destruct (try_decode D fuel s off buf e) as [s1 o1|s1 r] eqn:X.
        + apply try_go_idle in X. destruct (dec_finish D s1) as [s2 [i|k1| |]] eqn:Y; try discriminate; [apply IH|].
          intros [= <- <-]. eauto.
        + intros [= <- ->]. right. left. eapply try_kind; eauto.
      - destruct (is_reached e) eqn:Q; [|discriminate]. intros [= <- <-]. left. split; auto. }
    apply GO.
  - intros st s' k. cbn. intros ->. discriminate.
  - intros st s' k. cbn. destruct (_ =? _); congruence.
  - intros s k. cbn. destruct (_ =? _); [discriminate|auto].
Qed.
Lemma and_then_kinds : forall S0 S1 I0 I1 (D0 : Decoder S0 I0) (D1 : Decoder S1 I1) f Kd0 Ki0 Ka0 Kd1 Ki1 Ka1,
  dkinds D0 Kd0 Ki0 Ka0 -> dkinds D1 Kd1 Ki1 Ka1 ->
  dkinds (and_then_decoder D0 D1 f) (fun e k => (Kd0 e k \/ Ki0 k) \/ Kd1 e k) Ki1 (fun k => k = IncompleteDecoding \/ Ka1 k).
Proof.
  intros S0 S1 I0 I1 D0 D1 f Kd0 Ki0 Ka0 Kd1 Ki1 Ka1 H0 H1. split.
  - intros fuel [s0 o] buf e s' k. cbn. unfold and_then_decode. cbn.
    assert (GO : forall t s1 off, and_then_body D1 fuel t s1 off buf e = (s', Err k) -> Kd1 e k).
    { intros t s1 off. unfold and_then_body. destruct (try_decode D1 fuel s1 off buf e) as [|s2 r] eqn:X; [discriminate|].
      intros [= <- ->]. eapply try_kind; eauto. }
    destruct o as [s1|]; [intros X; right; eapply GO, X|].
    destruct (try_decode D0 fuel s0 0 buf e) as [t o|t r] eqn:X.
    + apply try_go_idle in X. destruct (dec_finish D0 t) as [t' [i|k1| |]] eqn:Y; try discriminate.
      * intros Z; right; eapply GO, Z.
      * intros [= <- <-]. left. right. eapply dk_idle; eauto.
    + intros [= <- ->]. left. left. eapply try_kind; eauto.
  - intros [s0 o] s' k. cbn. destruct o as [s1|]; [|discriminate]. intros id [= <- E].
    destruct (dec_finish D1 s1) as [s2 r] eqn:X. cbn in E; subst r. eapply dk_idle; eauto.
  - intros [s0 o] s' k. cbn. destruct o as [s1|]; [|intros [= <- <-]; auto]. intros [= <- E].
    destruct (dec_finish D1 s1) as [s2 r] eqn:X. cbn in E; subst r. right. eapply dk_any; eauto.
  - intros [s0 o] k. cbn. destruct o; eapply dk_req; eauto.
Qed.
Lemma add_dec_not_err : forall a b k, add_for_decoding a b <> Err k.
Proof.
  intros [n| |] [m| |] k; cbn; try discriminate.
  - destruct (u64_add n m); discriminate.
  - destruct (_ =? _)%N; discriminate.
  - destruct (_ =? _)%N; discriminate.
Qed.
Lemma add_enc_not_err : forall a b k, add_for_encoding a b <> Err k.
Proof. intros [n| |] [m| |] k; cbn; try discriminate. destruct (u64_add n m); discriminate. Qed.
Lemma rbind_not_err : forall A B (r : res A) (f : A -> res B) k,
  (forall k, r <> Err k) -> (forall a k, f a <> Err k) -> rbind r f <> Err k.
Proof. intros A B [a|k'| |] f k H G; cbn; try discriminate; [apply G|]. now destruct (H k'). Qed.
Lemma dp_one_kinds : forall S I (D : Decoder S I) Kd Ki Ka, dkinds D Kd Ki Ka -> pdkinds (dp_one D) Kd Ki Ka.
Proof.
  intros S I D Kd Ki Ka H. split; cbn.
  - intros. eapply try_kind; eauto.
  - apply (dk_idle H).
  - apply (dk_any H).
  - intros q s k. apply rbind_not_err; [apply (dk_req H)|]. intros; apply add_dec_not_err.
Qed.
Lemma dp_snoc_kinds : forall S I S' I' (P : DecParts S I) (D : Decoder S' I') Kd Ki Ka Kd' Ki' Ka',
  pdkinds P Kd Ki Ka -> dkinds D Kd' Ki' Ka' ->
  pdkinds (dp_snoc P D) (fun e k => Kd e k \/ Kd' e k) (fun k => Ki k \/ Ki' k) (fun k => Ka k \/ Ka' k).
Proof.
  intros S I S' I' P D Kd Ki Ka Kd' Ki' Ka' H H'. split; cbn.
  - intros fuel [s t] off buf e s' k. cbn. destruct (dp_decode P fuel s off buf e) as [s1 o|s1 r] eqn:X.
    + destruct (try_decode D fuel t o buf e) as [t1 o1|t1 r] eqn:Y; [discriminate|].
      intros [= <- ->]. right. eapply try_kind; eauto.
    + intros [= <- ->]. left. eapply pk_decode; eauto.
  - intros [s t] s' k. cbn. intros id. apply andb_prop in id. destruct id as [id id'].
    destruct (dp_finish P s) as [s1 [i|k1| |]] eqn:X; try discriminate.
    + destruct (dec_finish D t) as [t1 r] eqn:Y. intros [= <- E]. apply rmap_is_err in E. subst.
      right. eapply dk_idle; eauto.
    + intros [= <- <-]. left. eapply pk_idle; eauto.
  - intros [s t] s' k. cbn.
    destruct (dp_finish P s) as [s1 [i|k1| |]] eqn:X; try discriminate.
    + destruct (dec_finish D t) as [t1 r] eqn:Y. intros [= <- E]. apply rmap_is_err in E. subst.
      right. eapply dk_any; eauto.
    + intros [= <- <-]. left. eapply pk_any; eauto.
  - intros q [s t] k. cbn. apply rbind_not_err; [apply (pk_req H)|]. intros a k1.
    apply rbind_not_err; [apply (dk_req H')|]. intros; apply add_dec_not_err.
Qed.
Lemma tuple_kinds : forall S I (P : DecParts S I) Kd Ki Ka, pdkinds P Kd Ki Ka ->
  dkinds (tuple_of_dec_parts P) Kd Ki Ka.
Proof.
  intros S I P Kd Ki Ka [A B C R]. split; cbn; auto.
  intros fuel s buf e s' k. destruct (dp_decode P fuel s 0 buf e) as [s1 o|s1 r] eqn:X; [discriminate|].
  intros [= <- ->]. eauto.
Qed.

Lemma udec_kinds : forall k, dkinds (udec k) eof (fun _ => False) (fun k => k = IncompleteDecoding).
Proof. intros []; apply num_kinds. Qed.
Lemma sdec_kinds : forall k, dkinds (sdec k) eof (fun _ => False) (fun k => k = IncompleteDecoding).
Proof. intros []; apply num_kinds. Qed.

Lemma term_dkinds :
  (forall A (c : codec A), dkinds (decoder c) (decode_kinds c) (finish_kinds c) (early_kinds c)) /\
  (forall A (p : parts A), pdkinds (psem_dec (psem p)) (pdecode_kinds p) (pfinish_kinds p) (pearly_kinds p)).
Proof.
  apply codec_parts_ind; unfold decoder; cbn -[eos_with_remaining eos_new].
  - apply udec_kinds.
  - apply sdec_kinds.
  - apply null_kinds.
  - intros n. apply copy_kinds.
  - intros n. apply bytes_kinds.
  - apply rem_kinds.
  - eapply dkinds_sub; [apply utf8_kinds, rem_kinds|cbn; tauto..].
  - intros n. eapply dkinds_sub; [apply utf8_kinds, copy_kinds|cbn; tauto..].
  - intros b n. eapply dkinds_sub; [apply length_kinds, pad_kinds|cbn..]; try tauto.
    intros e k [?|[r ?]]; auto.
  - intros A f g. apply mono_kinds.
  - intros A p H. now apply tuple_kinds.
  - intros A B f g c H. now apply map_kinds.
  - intros A B f g c H. now apply try_map_kinds.
  - intros A f g c H. now apply map_err_kinds.
  - intros A b c H. now apply omit_kinds.
  - intros A n c H. exact (length_kinds H).
  - intros A n c H. exact (length_kinds H).
  - intros A n c H. exact (max_kinds H).
  - intros A c H. exact (peek_kinds H).
  - intros A c H. exact (maybe_kinds H).
  - intros A c H. exact H.
  - intros A c H. exact (collect_kinds H).
  - intros A n c H. exact (collectn_kinds H).
  - intros A k size c H. eapply dkinds_sub; [exact (and_then_kinds _ (udec_kinds k) (length_kinds H))|cbn -[eos_with_remaining]..]; tauto.
  - intros A k c H. eapply dkinds_sub; [exact (and_then_kinds _ (udec_kinds k) (collectn_kinds H))|cbn..]; tauto.
  - intros A k c H. eapply dkinds_sub; [exact (and_then_kinds _ (udec_kinds k) (omit_kinds H))|cbn..]; tauto.
  - intros A B c H c' H'. now apply dp_snoc_kinds; [apply dp_one_kinds|].
  - intros A B p H c H'. now apply dp_snoc_kinds.
Qed.

(** ** Encoders *)
Record ekinds {S I} (E : Encoder S I) (Inv : S -> Prop) (Ke : Eos -> ErrorKind -> Prop) (Ki Ks : ErrorKind -> Prop) : Prop :=
  { ek_inv_start : forall fuel s i s' r, Inv s -> enc_start E fuel s i = (s', r) -> Inv s';
    ek_inv_encode : forall fuel s buf e s' buf' r, Inv s -> enc_encode E fuel s buf e = (s', buf', r) -> Inv s';
    ek_encode : forall fuel s buf e s' buf' k, Inv s -> enc_encode E fuel s buf e = (s', buf', Err k) -> Ke e k;
    ek_idle : forall fuel s i s' k, Inv s -> enc_idle E s = true -> enc_start E fuel s i = (s', Err k) -> Ki k;
    ek_start : forall fuel s i s' k, Inv s -> enc_start E fuel s i = (s', Err k) -> Ks k;
    ek_req : forall s k, enc_req E s <> Err k }.
Record pekinds {S I} (P : EncParts S I) (Inv : S -> Prop) (Ke : Eos -> ErrorKind -> Prop) (Ki Ks : ErrorKind -> Prop) : Prop :=
  { qk_inv_start : forall fuel s i s' r, Inv s -> ep_start P fuel s i = (s', r) -> Inv s';
    qk_inv_encode : forall fuel s off buf e, Inv s ->
      match ep_encode P fuel s off buf e with (TGo s' _, _) => Inv s' | (TRet s' _, _) => Inv s' end;
    qk_encode : forall fuel s off buf e s' buf' k, Inv s -> ep_encode P fuel s off buf e = (TRet s' (Err k), buf') -> Ke e k;
    qk_idle : forall fuel s i s' k, Inv s -> ep_idle P s = true -> ep_start P fuel s i = (s', Err k) -> Ki k;
    qk_start : forall fuel s i s' k, Inv s -> ep_start P fuel s i = (s', Err k) -> Ks k;
    qk_req : forall q s k, ep_req P q s <> Err k }.

Arguments ek_inv_start [S I E Inv Ke Ki Ks] _ [fuel s i s' r] _ _.
Arguments ek_inv_encode [S I E Inv Ke Ki Ks] _ [fuel s buf e s' buf' r] _ _.
Arguments ek_encode [S I E Inv Ke Ki Ks] _ [fuel s buf e s' buf' k] _ _.
Arguments ek_req [S I E Inv Ke Ki Ks] _ s k _.
Arguments qk_inv_start [S I P Inv Ke Ki Ks] _ [fuel s i s' r] _ _.
Arguments qk_inv_encode [S I P Inv Ke Ki Ks] _ fuel [s] off buf e _.

Arguments ek_idle [S I E Inv Ke Ki Ks] _ [fuel s i s' k] _ _ _.
Arguments ek_start [S I E Inv Ke Ki Ks] _ [fuel s i s' k] _ _.
Arguments qk_idle [S I P Inv Ke Ki Ks] _ [fuel s i s' k] _ _ _.
Arguments qk_start [S I P Inv Ke Ki Ks] _ [fuel s i s' k] _ _.
Arguments qk_encode [S I P Inv Ke Ki Ks] _ [fuel s off buf e s' buf' k] _ _.
Lemma ekinds_sub : forall S I (E : Encoder S I) Inv Ke Ki Ks (Ke' : Eos -> ErrorKind -> Prop) (Ki' Ks' : ErrorKind -> Prop),
  ekinds E Inv Ke Ki Ks ->
  (forall e k, Ke e k -> Ke' e k) -> (forall k, Ki k -> Ki' k) -> (forall k, Ks k -> Ks' k) ->
  ekinds E Inv Ke' Ki' Ks'.
Proof. intros S I E Inv Ke Ki Ks Ke' Ki' Ks' [A B C D F R] X Y Z. split; eauto. Qed.
Lemma try_enc_kinds : forall S I (E : Encoder S I) Inv Ke Ki Ks, ekinds E Inv Ke Ki Ks ->
  forall fuel s off buf e, Inv s ->
  match try_encode E fuel s off buf e with
  | (TGo s' _, _) => Inv s'
  | (TRet s' r, _) => Inv s' /\ forall k, r = Err k -> Ke e k
  end.
Proof.
  intros S I E Inv Ke Ki Ks H fuel s off buf e V. unfold try_encode.
  destruct (enc_idle E s); auto. destruct (slice_from off buf); [|split; auto; discriminate].
  destruct (enc_encode E fuel s l e) as [[s1 b1] r] eqn:X. pose proof (ek_inv_encode H V X) as V1.
  destruct r as [n|k| |]; try (split; auto; discriminate).
  - destruct (enc_idle E s1); auto. split; auto; discriminate.
  - split; auto. intros k1 [= <-]. exact (ek_encode H V X).
Qed.
Arguments try_enc_kinds [S I E Inv Ke Ki Ks] _ fuel [s] off buf e _.
Definition always {S : Type} (s : S) : Prop := True.

Lemma benc_kinds : forall B (BX : ByteBox B),
  ekinds (bytes_encoder BX) always eof (fun _ => False) (fun k => k = EncoderFull).
Proof.
  intros B BX. split; try (intros; exact I).
  - intros fuel s buf e s' buf' k _. cbn. unfold bytes_encode. destruct (be_bytes s); [|discriminate].
    destruct (usize_sub _ _); [|discriminate]. destruct (_ =? _); [discriminate|].
    destruct (is_reached e) eqn:Q; [|discriminate]. intros [= _ _ <-]. split; auto.
  - intros fuel s i s' k _. cbn. unfold bytes_start. intros ->. discriminate.
  - intros fuel s i s' k _. cbn. unfold bytes_start. destruct (bytes_enc_idle s); congruence.
  - intros s k. cbn. unfold bytes_enc_exact. destruct (be_bytes s); [|discriminate]. destruct (usize_sub _ _); discriminate.
Qed.
Lemma nenc_kinds : forall T (f : T -> list byte + ErrorKind),
  ekinds (num_encoder f) always eof (fun k => exists i, f i = inr k) (fun k => k = EncoderFull \/ exists i, f i = inr k).
Proof.
  intros T f. destruct (benc_kinds vec_box) as [A B C D F R]. split; try (intros; exact I); auto.
  - intros fuel s i s' k _ id. cbn -[bytes_encoder]. destruct (f i) eqn:Q.
    + intros X. destruct (D _ _ _ _ _ Logic.I id X).
    + intros [= <- <-]; eauto.
  - intros fuel s i s' k _. cbn -[bytes_encoder]. destruct (f i) eqn:Q.
    + intros X. left. exact (F _ _ _ _ _ Logic.I X).
    + intros [= <- <-]; eauto.
Qed.
Lemma uenc_kinds : forall n,
  ekinds (uenc n) always eof (range_error n) (fun k => k = EncoderFull \/ range_error n k).
Proof.
  assert (M : forall m f n, narrow n = true -> ekinds (num_encoder (max_item m f)) always eof (range_error n) (fun k => k = EncoderFull \/ range_error n k)).
  { intros m f n Q. assert (G : forall k, (exists i, max_item m f i = inr k) -> range_error n k).
    { intros k [i H]. unfold max_item in H. destruct (_ <=? _)%N; [discriminate|]. injection H as <-. split; auto. }
    eapply ekinds_sub; [apply nenc_kinds|auto..]. intros k [?|?]; auto. }
  assert (T : forall f n, ekinds (num_encoder (@total_item N f)) always eof (range_error n) (fun k => k = EncoderFull \/ range_error n k)).
  { intros f n. eapply ekinds_sub; [apply nenc_kinds|auto..].
    - intros k [i H]. discriminate.
    - intros k [?|[i H]]; [auto|discriminate]. }
  intros []; (apply T || (apply M; reflexivity)).
Qed.
Lemma senc_kinds : forall n, ekinds (senc n) always eof (fun _ => False) (fun k => k = EncoderFull).
Proof.
  assert (T : forall f, ekinds (num_encoder (@total_item Z f)) always eof (fun _ => False) (fun k => k = EncoderFull)).
  { intros f. eapply ekinds_sub; [apply nenc_kinds|auto..].
    - intros k [i H]. discriminate.
    - intros k [?|[i H]]; [auto|discriminate]. }
  intros []; apply T.
Qed.
Lemma enull_kinds : ekinds null_encoder always (fun _ _ => False) (fun _ => False) (fun _ => False).
Proof. split; cbn; intros; try exact I; discriminate. Qed.
Lemma epad_kinds : ekinds pad_encoder always (fun _ _ => False) (fun _ => False) (fun k => k = EncoderFull).
Proof.
  split; try (intros; exact I).
  - intros fuel [b|] buf e s' buf' k _; cbn; discriminate.
  - intros fuel [b|] i s' k _; cbn; discriminate.
  - intros fuel [b|] i s' k _; cbn; congruence.
  - intros s k. cbn. discriminate.
Qed.
Lemma emono_kinds : forall A (g : MonoEncode A),
  ekinds (mono_encoder g) (fun st => me_item st = None \/ bytes_enc_idle (me_buf st) = true)
    (fun e k => eof e k \/ exists a chunks, g a = (chunks, Some k)) (fun _ => False) (fun k => k = EncoderFull).
Proof.
  intros A g. split.
  - intros fuel [o b] i s' r. cbn. unfold mono_enc_idle. cbn. intros V.
    destruct o as [a|]; cbn; [intros [= <- <-]; auto|]. destruct (bytes_enc_idle b) eqn:Q; intros [= <- <-]; auto.
  - intros fuel [o b] buf e s' buf' r V. cbn. unfold mono_encode. cbn. destruct o as [a|].
    + destruct (g a) as [ch [k1|]]; [intros [= <- <- <-]; auto|]. destruct (wc_b _); [intros [= <- <- <-]; auto|].
      destruct (bytes_start b _) as [b1 [x|k1| |]]; intros [= <- <- <-]; auto.
    + destruct (bytes_encode vec_box b buf e) as [[b1 b2] r1]. intros [= <- <- <-]; auto.
  - intros fuel [o b] buf e s' buf' k V. cbn in *. unfold mono_encode. cbn. destruct o as [a|].
    + destruct (g a) as [ch [k1|]] eqn:G; [intros [= <- <- <-]; eauto|]. destruct (wc_b _); [discriminate|].
      destruct V as [V|V]; [discriminate|]. unfold bytes_start. rewrite V. discriminate.
    + destruct (bytes_encode vec_box b buf e) as [[b1 b2] r1] eqn:X. intros [= <- <- ->].
      left. exact (ek_encode (benc_kinds vec_box) (fuel:=0) Logic.I X).
  - intros fuel s i s' k _. cbn. intros ->. discriminate.
  - intros fuel s i s' k _. cbn. destruct (mono_enc_idle s); congruence.
  - intros s k. cbn. destruct (mono_enc_idle s); [discriminate|]. destruct (me_item s); [discriminate|].
    exact (ek_req (benc_kinds vec_box) (me_buf s) k).
Qed.
Lemma emap_kinds : forall S I T (E : Encoder S I) (f : T -> I) Inv Ke Ki Ks, ekinds E Inv Ke Ki Ks ->
  ekinds (map_from_encoder E f) Inv Ke Ki Ks.
Proof. intros S I T E f Inv Ke Ki Ks [A B C D F R]. split; cbn; eauto. Qed.
Lemma etry_kinds : forall S I T (E : Encoder S I) (g : T -> I + ErrorKind) Inv Ke Ki Ks, ekinds E Inv Ke Ki Ks ->
  ekinds (try_map_from_encoder E g) Inv Ke (fun k => Ki k \/ exists b, g b = inr k) (fun k => Ks k \/ exists b, g b = inr k).
Proof.
  intros S I T E g Inv Ke Ki Ks [A B C D F R]. split; cbn; eauto.
  - intros fuel s i s' r V. destruct (g i) eqn:Q; [eauto|intros [= <- <-]; auto].
  - intros fuel s i s' k V id. destruct (g i) eqn:Q; [eauto|intros [= <- <-]; eauto].
  - intros fuel s i s' k V. destruct (g i) eqn:Q; [eauto|intros [= <- <-]; eauto].
Qed.
Lemma eerr_kinds : forall S I (E : Encoder S I) g Inv Ke Ki Ks, ekinds E Inv Ke Ki Ks ->
  ekinds (map_err_encoder E g) Inv (fun e k => exists k0, Ke e k0 /\ k = g k0)
    (fun k => exists k0, Ki k0 /\ k = g k0) (fun k => exists k0, Ks k0 /\ k = g k0).
Proof.
  intros S I E g Inv Ke Ki Ks [A B C D F R]. split; cbn; eauto.
  - intros fuel s i s' r V. destruct (enc_start E fuel s i) as [s1 r1] eqn:X. intros [= <- <-]. eauto.
  - intros fuel s buf e s' buf' r V. destruct (enc_encode E fuel s buf e) as [[s1 b1] r1] eqn:X. intros [= <- <- <-]. eauto.
  - intros fuel s buf e s' buf' k V. destruct (enc_encode E fuel s buf e) as [[s1 b1] r1] eqn:X. intros [= <- <- Q].
    apply rmap_err_is in Q. destruct Q as (k0 & -> & ->). eauto.
  - intros fuel s i s' k V id. destruct (enc_start E fuel s i) as [s1 r1] eqn:X. intros [= <- Q].
    apply rmap_err_is in Q. destruct Q as (k0 & -> & ->). eauto.
  - intros fuel s i s' k V. destruct (enc_start E fuel s i) as [s1 r1] eqn:X. intros [= <- Q].
    apply rmap_err_is in Q. destruct Q as (k0 & -> & ->). eauto.
Qed.
Lemma eopt_kinds : forall S I (E : Encoder S I) Inv Ke Ki Ks, ekinds E Inv Ke Ki Ks ->
  ekinds (optional_encoder E) Inv Ke Ki Ks.
Proof.
  intros S I E Inv Ke Ki Ks [A B C D F R]. split; cbn; eauto.
  - intros fuel s [i|] s' r V; [eauto|intros [= <- <-]; auto].
  - intros fuel s [i|] s' k V id; [eauto|discriminate].
  - intros fuel s [i|] s' k V; [eauto|discriminate].
Qed.
Lemma elen_kinds : forall S I (E : Encoder S I) Inv Ke Ki Ks, ekinds E Inv Ke Ki Ks ->
  ekinds (length_encoder E) (fun st => Inv (ln_inner st))
    (fun e k => eof e k \/ k = InvalidInput \/ Ke e k \/ Ke (eos_new true) k)
    (fun k => k = EncoderFull \/ Ks k) (fun k => k = EncoderFull \/ Ks k).
Proof.
  intros S I E Inv Ke Ki Ks [A B C D F R].
  assert (SK : forall fuel s i s' k, Inv (ln_inner s) -> enc_start (length_encoder E) fuel s i = (s', Err k) -> k = EncoderFull \/ Ks k).
  { intros fuel s i s' k V. cbn. destruct (_ =? _)%N; [|intros [= <- <-]; auto].
    destruct (enc_start E fuel (ln_inner s) i) as [s1 r1] eqn:X. intros [= <- ->]. right. eauto. }
  assert (EN : forall fuel st buf e s' buf' r, Inv (ln_inner st) -> length_encode E fuel st buf e = (s', buf', r) ->
    Inv (ln_inner s') /\ forall k, r = Err k -> eof e k \/ k = InvalidInput \/ Ke e k \/ Ke (eos_new true) k).
  { intros fuel st buf e s' buf' r V. unfold length_encode.
    destruct ((_ <? _)%N && is_reached e) eqn:Q.
    { intros [= <- <- <-]. split; auto. intros k [= <-]. left. apply andb_prop in Q. split; tauto. }
    set (e' := if (_ <? _)%N then e else eos_new true).
    assert (E' : e' = e \/ e' = eos_new true) by (unfold e'; destruct (_ <? _)%N; auto).
    destruct (enc_encode E fuel (ln_inner st) _ e') as [[s1 b1] r1] eqn:X. pose proof (B _ _ _ _ _ _ _ V X) as V1.
    destruct r1 as [n|k1| |]; try (intros [= <- <- <-]; split; auto; discriminate).
    - destruct (u64_sub _ _); [|intros [= <- <- <-]; split; auto; discriminate].
      destruct (enc_idle E s1 && _); intros [= <- <- <-]; split; auto; [|discriminate]. intros k [= <-]; auto.
    - intros [= <- <- <-]. split; auto. intros k [= <-]. apply C in X; auto. destruct E' as [->| ->]; auto. }
  split.
  - intros fuel s i s' r V. cbn. destruct (_ =? _)%N; [|intros [= <- <-]; auto].
    destruct (enc_start E fuel (ln_inner s) i) as [s1 r1] eqn:X. intros [= <- <-]. cbn. eauto.
  - intros fuel s buf e s' buf' r V X. exact (proj1 (EN _ _ _ _ _ _ _ V X)).
  - intros fuel s buf e s' buf' k V X. exact (proj2 (EN _ _ _ _ _ _ _ V X) _ eq_refl).
  - eauto.
  - eauto.
  - intros s k. cbn. discriminate.
Qed.
Lemma emax_kinds : forall S I (E : Encoder S I) Inv Ke Ki Ks, ekinds E Inv Ke Ki Ks ->
  ekinds (max_encoder E) (fun st => Inv (mx_inner st)) (fun e k => k = InvalidInput \/ Ke e k) Ki Ks.
Proof.
  intros S I E Inv Ke Ki Ks [A B C D F R].
  assert (EN : forall fuel st buf e s' buf' r, Inv (mx_inner st) -> max_encode E fuel st buf e = (s', buf', r) ->
    Inv (mx_inner s') /\ forall k, r = Err k -> k = InvalidInput \/ Ke e k).
  { intros fuel st buf e s' buf' r V. unfold max_encode.
    destruct (enc_encode E fuel (mx_inner st) buf e) as [[s1 b1] r1] eqn:X. pose proof (B _ _ _ _ _ _ _ V X) as V1.
    destruct r1 as [n|k1| |]; try (intros [= <- <- <-]; split; auto; discriminate).
    - destruct (u64_add _ _); [|intros [= <- <- <-]; split; auto; discriminate].
      destruct (_ <=? _)%N; intros [= <- <- <-]; split; auto; [discriminate|]. intros k [= <-]; auto.
    - intros [= <- <- <-]. split; auto. intros k [= <-]. eauto. }
  split.
  - intros fuel s i s' r V. cbn. destruct (enc_start E fuel (mx_inner s) i) as [s1 r1] eqn:X. intros [= <- <-]. cbn. eauto.
  - intros fuel s buf e s' buf' r V X. exact (proj1 (EN _ _ _ _ _ _ _ V X)).
  - intros fuel s buf e s' buf' k V X. exact (proj2 (EN _ _ _ _ _ _ _ V X) _ eq_refl).
  - intros fuel s i s' k V id. cbn. destruct (enc_start E fuel (mx_inner s) i) as [s1 r1] eqn:X. intros [= <- ->]. cbn. eauto.
  - intros fuel s i s' k V. cbn. destruct (enc_start E fuel (mx_inner s) i) as [s1 r1] eqn:X. intros [= <- ->]. cbn. eauto.
  - intros s k. cbn. auto.
Qed.
Lemma erepeat_kinds : forall S I (E : Encoder S I) Inv Ke Ki Ks, ekinds E Inv Ke Ki Ks ->
  ekinds (repeat_encoder E) (fun st => Inv (rp_inner st)) (fun e k => Ke e k \/ Ki k) (fun _ => False) (fun k => k = EncoderFull).
Proof.
  intros S I E Inv Ke Ki Ks [A B C D F R].
  assert (PU : forall fuel items s, Inv s ->
    match repeat_pull E fuel s items with
    | PullGo s' _ => Inv s' | PullDone s' => Inv s'
    | PullFail s' _ r => Inv s' /\ forall k, r = Err k -> Ki k
    end).
  { intros fuel items. induction items as [|i items IH]; intros s V; cbn [repeat_pull]; destruct (enc_idle E s) eqn:id; auto.
    destruct (enc_start E fuel s i) as [s1 [u|k1| |]] eqn:X; pose proof (A _ _ _ _ _ V X) as V1; [exact (IH _ V1)|..].
    all: split; auto; intros k Q; apply rcast_err in Q; try discriminate. injection Q as <-. eauto. }
  assert (EN : forall n fuel st off buf e s' buf' r, Inv (rp_inner st) -> repeat_loop E n fuel st off buf e = (s', buf', r) ->
    Inv (rp_inner s') /\ forall k, r = Err k -> Ke e k \/ Ki k).
  { induction n as [|n IH]; intros fuel st off buf e s' buf' r V; cbn [repeat_loop].
    { intros [= <- <- <-]. split; auto. discriminate. }
    specialize (PU fuel (match rp_items st with Some l => l | None => [] end) _ V).
    destruct (repeat_pull E fuel (rp_inner st) _) as [s1 rest|s1|s1 rest r1].
    - destruct (slice_from off buf); [|intros [= <- <- <-]; split; auto; discriminate].
      destruct (enc_encode E fuel s1 l e) as [[s2 b2] r2] eqn:X. pose proof (B _ _ _ _ _ _ _ PU X) as V2.
      destruct r2 as [m|k1| |]; try (intros [= <- <- <-]; split; auto; discriminate).
      + destruct (m =? 0); [intros [= <- <- <-]; split; auto; discriminate|]. apply IH. auto.
      + intros [= <- <- <-]. split; auto. intros k [= <-]. eauto.
    - intros [= <- <- <-]; split; auto; discriminate.
    - intros [= <- <- <-]; split; [apply PU|]. intros k Q. right. apply PU; auto. }
  split.
  - intros fuel s i s' r V. cbn. destruct (repeat_idle s); intros [= <- <-]; auto.
  - intros fuel s buf e s' buf' r V X. exact (proj1 (EN _ _ _ _ _ _ _ _ _ V X)).
  - intros fuel s buf e s' buf' k V X. exact (proj2 (EN _ _ _ _ _ _ _ _ _ V X) _ eq_refl).
  - intros fuel s i s' k V. cbn. intros ->. discriminate.
  - intros fuel s i s' k V. cbn. destruct (repeat_idle s); congruence.
  - intros s k. cbn. discriminate.
Qed.
Definition wr_fault (w : Writer) (k : ErrorKind) : Prop :=
  k = Other \/ (k = UnexpectedEos /\ In (WrErr IoUnexpectedEof) (wr_plan w)).
Lemma wr_all_fault : forall fuel w b w' r, wr_write_all_loop fuel w b = (w', r) ->
  (forall k, r = Err k -> wr_fault w k) /\ incl (wr_plan w') (wr_plan w).
Proof.
  induction fuel as [|fuel IH]; intros w [|x b] w' r; cbn [wr_write_all_loop];
    try (intros [= <- <-]; split; [discriminate|apply incl_refl]).
  set (bb := x :: b). unfold wr_write. destruct w as [d [|[n| |e] p]]; cbn [wr_plan wr_data].
  - cbn [length bb]. intros X. apply IH in X. exact X.
  - destruct (Nat.min _ _) eqn:M; [cbn in M; discriminate|]. intros X. apply IH in X. destruct X as [X Y]. split.
    + intros k Q. destruct (X k Q) as [->|[-> G]]; [left; auto|right; split; auto; cbn in *; auto].
    + cbn in *. now apply incl_tl.
  - intros [= <- <-]. split; [intros k [= <-]; left; auto|]. apply incl_tl, incl_refl.
  - assert (Z : forall k, Err (A:=unit) (err_of_io e) = Err k -> wr_fault (mkWriter d (WrErr e :: p)) k).
    { intros k [= <-]. destruct e; cbn; [left|right|left|left]; cbn; auto. }
    destruct e.
    1,2,4: intros [= <- <-]; split; [exact Z|apply incl_tl, incl_refl].
    intros X. apply IH in X. destruct X as [X Y]. split; [|cbn in *; now apply incl_tl].
    intros k Q. destruct (X k Q) as [->|[-> G]]; [left; auto|right; split; auto; cbn in *; auto].
Qed.
Lemma encode_all_kinds : forall S I (E : Encoder S I) Inv Ke Ki Ks, ekinds E Inv Ke Ki Ks ->
  forall fuel ifuel s buf w s' w' r, Inv s -> encode_all_loop E fuel ifuel s buf w = (s', w', r) ->
  Inv s' /\ forall k, r = Err k -> Ke (eos_new false) k \/ wr_fault w k.
Proof.
  intros S I E Inv Ke Ki Ks H fuel ifuel.
  induction fuel as [|fuel IH]; intros s buf w s' w' r V; cbn [encode_all_loop];
    (destruct (enc_idle E s); [intros [= <- <- <-]; split; auto; discriminate|]).
  { intros [= <- <- <-]; split; auto; discriminate. }
  destruct (enc_encode E ifuel s buf (eos_new false)) as [[s1 b1] r1] eqn:X.
  pose proof (ek_inv_encode H V X) as V1.
  destruct r1 as [n|k1| |]; try (intros [= <- <- <-]; split; auto; discriminate).
  - destruct (n <=? length b1); [|intros [= <- <- <-]; split; auto; discriminate].
    destruct (wr_write_all w (firstn n b1)) as [w1 r2] eqn:W. unfold wr_write_all in W. apply wr_all_fault in W.
    destruct W as [W1 W2]. destruct r2 as [u|k1| |]; try (intros [= <- <- <-]; split; auto; discriminate).
    + destruct (_ && _); [intros [= <- <- <-]; split; auto; intros k [= <-]; right; left; auto|].
      intros Y. apply IH in Y; auto. destruct Y as [Y1 Y2]. split; auto. intros k Q.
      destruct (Y2 k Q) as [|[->|[-> G]]]; auto; right; [left|right]; auto.
  - intros [= <- <- <-]. split; auto. intros k [= <-]. left. exact (ek_encode H V X).
Qed.
Arguments encode_all_kinds [S I E Inv Ke Ki Ks] _ [fuel ifuel s buf w s' w' r] _ _.
Lemma into_bytes_kinds : forall S I (E : Encoder S I) Inv Ke Ki Ks, ekinds E Inv Ke Ki Ks ->
  forall fuel s i s' r, Inv s -> encode_into_bytes E fuel s i = (s', r) ->
  Inv s' /\ forall k, r = Err k -> k = InvalidInput \/ k = InconsistentState \/ k = Other \/ Ks k \/
    exists b, Ke (eos_new b) k.
Proof.
  intros S I E Inv Ke Ki Ks H fuel s i s' r V. unfold encode_into_bytes.
  destruct (enc_start E fuel s i) as [s1 r1] eqn:X. pose proof (ek_inv_start H V X) as V1.
  destruct r1 as [u|k1| |]; try (intros [= <- <-]; split; auto; discriminate).
  - destruct (enc_req E s1) as [[n| |]|k1| |] eqn:Q; try (intros [= <- <-]; split; auto; discriminate).
    + destruct (n <=? isize_max)%N; [|intros [= <- <-]; split; auto; discriminate].
      destruct (enc_encode E fuel s1 _ _) as [[s2 b2] r2] eqn:Y. pose proof (ek_inv_encode H V1 Y) as V2.
      destruct r2 as [m|k1| |]; try (intros [= <- <-]; split; auto; discriminate).
      * destruct (enc_idle E s2); intros [= <- <-]; split; auto; [discriminate|]. intros k [= <-]; auto.
      * intros [= <- <-]. split; auto. intros k [= <-]. do 4 right. exists true. exact (ek_encode H V1 Y).
    + intros [= <- <-]. split; auto. intros k [= <-]; auto.
    + unfold encode_all. destruct (encode_all_loop E fuel fuel s1 _ _) as [[s2 w2] r2] eqn:Y.
      destruct (encode_all_kinds H V1 Y) as [V2 W].
      destruct r2 as [m|k1| |]; try (intros [= <- <-]; split; auto; discriminate).
      * destruct (_ <=? _)%N; intros [= <- <-]; split; auto; discriminate.
      * intros [= <- <-]. split; auto. intros k [= <-]. destruct (W k1 eq_refl) as [Z|[->|[_ []]]]; eauto 9.
    + now destruct (ek_req H s1 k1).
  - intros [= <- <-]. split; auto. intros k [= <-]. do 3 right. left. exact (ek_start H V X).
Qed.
Arguments into_bytes_kinds [S I E Inv Ke Ki Ks] _ [fuel s i s' r] _ _.
Lemma epre_kinds : forall S I (E : Encoder S I) Inv Ke Ki Ks, ekinds E Inv Ke Ki Ks ->
  ekinds (pre_encoder E) (fun st => Inv (pre_inner st)) eof
    (fun k => k = InvalidInput \/ k = InconsistentState \/ k = Other \/ Ks k \/ exists b, Ke (eos_new b) k)
    (fun k => k = EncoderFull \/ k = InvalidInput \/ k = InconsistentState \/ k = Other \/ Ks k \/ exists b, Ke (eos_new b) k).
Proof.
  intros S I E Inv Ke Ki Ks H. destruct (benc_kinds vec_box) as [A B C D F R].
  split; cbn -[bytes_encode bytes_enc_idle bytes_start eos_new].
  - intros fuel [s b] i s' r V. unfold pre_start. cbn -[bytes_start]. cbn in V.
    destruct (encode_into_bytes E fuel s i) as [s1 r1] eqn:X. destruct (into_bytes_kinds H V X) as [V1 _].
    destruct r1 as [w|k1| |]; try (intros [= <- <-]; auto). destruct (bytes_start b w) as [b1 r2]. intros [= <- <-]; auto.
  - intros fuel [s b] buf e s' buf' r V. cbn -[bytes_encode]. destruct (bytes_encode vec_box b buf e) as [[b1 b2] r1].
    intros [= <- <- <-]; auto.
  - intros fuel [s b] buf e s' buf' k V. cbn -[bytes_encode]. destruct (bytes_encode vec_box b buf e) as [[b1 b2] r1] eqn:X.
    intros [= <- <- ->]. exact (C 0 b buf e _ _ _ Logic.I X).
  - intros fuel [s b] i s' k V. unfold pre_start. cbn -[bytes_start bytes_enc_idle eos_new]. cbn in V. intros id.
    destruct (encode_into_bytes E fuel s i) as [s1 r1] eqn:X. destruct (into_bytes_kinds H V X) as [V1 K].
    destruct r1 as [w|k1| |]; try discriminate.
    + destruct (bytes_start b w) as [b1 r2] eqn:Y. intros [= <- ->]. destruct (D 0 _ _ _ _ Logic.I id Y).
    + intros [= <- <-]. auto.
  - intros fuel [s b] i s' k V. unfold pre_start. cbn -[bytes_start bytes_enc_idle eos_new]. cbn in V.
    destruct (encode_into_bytes E fuel s i) as [s1 r1] eqn:X. destruct (into_bytes_kinds H V X) as [V1 K].
    destruct r1 as [w|k1| |]; try discriminate.
    + destruct (bytes_start b w) as [b1 r2] eqn:Y. intros [= <- ->]. left. exact (F 0 _ _ _ _ Logic.I Y).
    + intros [= <- <-]. auto.
  - intros s k. exact (R (pre_encoded s) k).
Qed.
Lemma ep_one_kinds : forall S I (E : Encoder S I) Inv Ke Ki Ks, ekinds E Inv Ke Ki Ks -> pekinds (ep_one E) Inv Ke Ki Ks.
Proof.
  intros S I E Inv Ke Ki Ks H. split; cbn.
  - apply (ek_inv_start H).
  - intros fuel s off buf e V. pose proof (try_enc_kinds H fuel off buf e V) as T.
    destruct (try_encode E fuel s off buf e) as [[s1 o|s1 r] b1]; tauto.
  - intros fuel s off buf e s' buf' k V X. pose proof (try_enc_kinds H fuel off buf e V) as T.
    rewrite X in T. now apply T.
  - apply (ek_idle H).
  - apply (ek_start H).
  - intros q s k. apply rbind_not_err; [apply (ek_req H)|]. intros; apply add_enc_not_err.
Qed.
Lemma ep_snoc_kinds : forall S I S' I' (P : EncParts S I) (E : Encoder S' I') Inv Inv' Ke Ki Ks Ke' Ki' Ks',
  pekinds P Inv Ke Ki Ks -> ekinds E Inv' Ke' Ki' Ks' ->
  pekinds (ep_snoc P E) (fun s => Inv (fst s) /\ Inv' (snd s))
    (fun e k => Ke e k \/ Ke' e k) (fun k => Ki k \/ Ki' k) (fun k => Ks k \/ Ks' k).
Proof.
  intros S I S' I' P E Inv Inv' Ke Ki Ks Ke' Ki' Ks' H H'. split; cbn.
  - intros fuel [s t] [i j] s' r [V V']. cbn in *. destruct (ep_start P fuel s i) as [s1 r1] eqn:X.
    pose proof (qk_inv_start H V X) as V1.
    destruct r1 as [u|k1| |]; try (intros [= <- <-]; auto; fail).
    destruct (enc_start E fuel t j) as [t1 r2] eqn:Y. pose proof (ek_inv_start H' V' Y) as V2.
    intros [= <- <-]; auto.
  - intros fuel [s t] off buf e [V V']. cbn in *. pose proof (qk_inv_encode H fuel off buf e V) as T.
    destruct (ep_encode P fuel s off buf e) as [[s1 o|s1 r] b1]; auto.
    pose proof (try_enc_kinds H' fuel o b1 e V') as T'. destruct (try_encode E fuel t o b1 e) as [[t1 o1|t1 r1] b2]; cbn; tauto.
  - intros fuel [s t] off buf e s' buf' k [V V']. cbn in *.
    destruct (ep_encode P fuel s off buf e) as [[s1 o|s1 r] b1] eqn:X.
    + pose proof (try_enc_kinds H' fuel o b1 e V') as T'. destruct (try_encode E fuel t o b1 e) as [[t1 o1|t1 r1] b2]; [discriminate|].
      intros [= <- -> <-]. right. now apply T'.
    + intros [= <- -> <-]. left. exact (qk_encode H V X).
  - intros fuel [s t] [i j] s' k [V V']. cbn in *. intros id. apply andb_prop in id. destruct id as [id id'].
    destruct (ep_start P fuel s i) as [s1 [u|k1| |]] eqn:X; try discriminate.
    + destruct (enc_start E fuel t j) as [t1 r2] eqn:Y. intros [= <- ->]. right. exact (ek_idle H' V' id' Y).
    + intros [= <- <-]. left. exact (qk_idle H V id X).
  - intros fuel [s t] [i j] s' k [V V']. cbn in *.
    destruct (ep_start P fuel s i) as [s1 [u|k1| |]] eqn:X; try discriminate.
    + destruct (enc_start E fuel t j) as [t1 r2] eqn:Y. intros [= <- ->]. right. exact (ek_start H' V' Y).
    + intros [= <- <-]. left. exact (qk_start H V X).
  - intros q [s t] k. cbn. apply rbind_not_err; [apply (qk_req H)|]. intros a k1.
    apply rbind_not_err; [apply (ek_req H')|]. intros; apply add_enc_not_err.
Qed.
Lemma etuple_kinds : forall S I (P : EncParts S I) Inv Ke Ki Ks, pekinds P Inv Ke Ki Ks ->
  ekinds (tuple_of_enc_parts P) Inv Ke Ki Ks.
Proof.
  intros S I P Inv Ke Ki Ks [A B C D F R]. split; cbn; auto.
  - intros fuel s buf e s' buf' r V. specialize (B fuel s 0 buf e V).
    destruct (ep_encode P fuel s 0 buf e) as [[s1 o|s1 r1] b1]; intros [= <- <- <-]; auto.
  - intros fuel s buf e s' buf' k V. destruct (ep_encode P fuel s 0 buf e) as [[s1 o|s1 r1] b1] eqn:X; [discriminate|].
    intros [= <- <- ->]. eauto.
Qed.
Lemma etuple2_kinds : forall S I S' I' (E0 : Encoder S I) (E : Encoder S' I') Inv Inv' Ke Ki Ks Ke' Ki' Ks',
  ekinds E0 Inv Ke Ki Ks -> ekinds E Inv' Ke' Ki' Ks' ->
  ekinds (tuple2_encoder E0 E) (fun s => Inv (fst s) /\ Inv' (snd s))
    (fun e k => Ke e k \/ Ke' e k) (fun k => Ki k \/ Ki' k) (fun k => Ks k \/ Ks' k).
Proof. intros. apply etuple_kinds, ep_snoc_kinds; auto. now apply ep_one_kinds. Qed.

Lemma term_ekinds :
  (forall A (c : codec A), exists Inv, ekinds (encoder c) Inv (encode_kinds c) (idle_start_kinds c) (start_kinds c) /\ Inv (enc_fresh c)) /\
  (forall A (p : parts A), exists Inv, pekinds (psem_enc (psem p)) Inv (pencode_kinds p) (pidle_start_kinds p) (pstart_kinds p) /\ Inv (penc0 (psem p))).
Proof.
  apply codec_parts_ind; unfold encoder, enc_fresh; cbn -[eos_new].
  - intros k. eexists. split; [apply uenc_kinds|exact I].
  - intros k. eexists. split; [apply senc_kinds|exact I].
  - eexists. split; [apply enull_kinds|exact I].
  - intros n. eexists. split; [apply benc_kinds|exact I].
  - intros n. eexists. split; [apply benc_kinds|exact I].
  - eexists. split; [apply benc_kinds|exact I].
  - eexists. split; [apply benc_kinds|exact I].
  - intros n. eexists. split; [apply benc_kinds|exact I].
  - intros b n. eexists. split; [eapply ekinds_sub; [apply emap_kinds, (elen_kinds epad_kinds)|cbn..]; tauto|exact I].
  - intros A f g. eexists. split; [apply emono_kinds|left; reflexivity].
  - intros A p (Inv & H & V). exists Inv. split; auto. now apply etuple_kinds.
  - intros A B f g c (Inv & H & V). exists Inv. split; auto. now apply emap_kinds.
  - intros A B f g c (Inv & H & V). exists Inv. split; auto. now apply etry_kinds.
  - intros A f g c (Inv & H & V). exists Inv. split; auto. now apply eerr_kinds.
  - intros A b c (Inv & H & V). exists Inv. split; auto. now apply eopt_kinds.
  - intros A n c (Inv & H & V). exists Inv. split; auto.
  - intros A n c (Inv & H & V). eexists. split; [exact (elen_kinds H)|exact V].
  - intros A n c (Inv & H & V). eexists. split; [exact (emax_kinds H)|exact V].
  - intros A c (Inv & H & V). exists Inv. split; auto.
  - intros A c (Inv & H & V). exists Inv. split; auto.
  - intros A c (Inv & H & V). eexists. split; [exact (epre_kinds H)|exact V].
  - intros A c (Inv & H & V). eexists. split; [exact (erepeat_kinds H)|exact V].
  - intros A n c (Inv & H & V). eexists. split; [exact (erepeat_kinds H)|exact V].
  - intros A k size c (Inv & H & V). eexists. split.
    + eapply ekinds_sub; [exact (emap_kinds _ (etuple2_kinds (uenc_kinds k) H))|cbn..]; tauto.
    + split; [exact I|exact V].
  - intros A k c (Inv & H & V). eexists. split.
    + eapply ekinds_sub; [exact (emap_kinds _ (etuple2_kinds (uenc_kinds k) (erepeat_kinds H)))|cbn..]; tauto.
    + split; [exact I|exact V].
  - intros A k c (Inv & H & V). eexists. split.
    + eapply ekinds_sub; [exact (emap_kinds _ (etuple2_kinds (uenc_kinds k) (eopt_kinds H)))|cbn..]; tauto.
    + split; [exact I|exact V].
  - intros A B c (Inv & H & V) c' (Inv' & H' & V'). eexists. split; [exact (ep_snoc_kinds (ep_one_kinds H) H')|split; [exact V|exact V']].
  - intros A B p (Inv & H & V) c' (Inv' & H' & V'). eexists. split; [exact (ep_snoc_kinds H H')|split; [exact V|exact V']].
Qed.
