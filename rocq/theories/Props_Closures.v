(** * C84: when the closures given to combinators are called *)
From Coq Require Import Lia.
From Verif Require Import Closures Prim Fixnum Props_Extend.
Set Implicit Arguments.

(** ** [map] and [try_map]: once for each decoded item *)
Theorem C84_map : forall C S I T (D : Decoder S I) (f : C -> I -> C * T) s c ops,
  dec_trace (map_eff D f) (s, c) ops = snd (each_item f c (dec_trace D s ops)) /\
  snd (dec_final (map_eff D f) (s, c) ops) = fst (each_item f c (dec_trace D s ops)).
Proof.
  intros C S I T D f s c ops. revert s c.
  induction ops as [|o ops IH]; intros s c; [split; reflexivity|].
  destruct o as [fuel buf e| | |]; cbn [dec_trace dec_final dec_do map_eff dec_decode dec_finish dec_req dec_idle fst snd].
  - destruct (dec_decode D fuel s buf e) as [s' r]. cbn [fst snd each_item]. destruct (IH s' c) as [A B].
    destruct (each_item f c (dec_trace D s' ops)) as [c2 l]. cbn [fst snd] in *. rewrite A, B. auto.
  - destruct (dec_finish D s) as [s' [i|k| |]]; cbn [fst snd each_item].
    + destruct (f c i) as [c1 t]. cbn [fst snd]. destruct (IH s' c1) as [A B].
      destruct (each_item f c1 (dec_trace D s' ops)) as [c2 l]. cbn [fst snd] in *. rewrite A, B. auto.
    + destruct (IH s' c) as [A B].
      destruct (each_item f c (dec_trace D s' ops)) as [c2 l]. cbn [fst snd] in *. rewrite A, B. auto.
    + destruct (IH s' c) as [A B].
      destruct (each_item f c (dec_trace D s' ops)) as [c2 l]. cbn [fst snd] in *. rewrite A, B. auto.
    + destruct (IH s' c) as [A B].
      destruct (each_item f c (dec_trace D s' ops)) as [c2 l]. cbn [fst snd] in *. rewrite A, B. auto.
  - cbn [fst snd each_item]. destruct (IH s c) as [A B].
    destruct (each_item f c (dec_trace D s ops)) as [c2 l]. cbn [fst snd] in *. rewrite A, B. auto.
  - cbn [fst snd each_item]. destruct (IH s c) as [A B].
    destruct (each_item f c (dec_trace D s ops)) as [c2 l]. cbn [fst snd] in *. rewrite A, B. auto.
Qed.
Print Assumptions C84_map.

Theorem C84_try_map : forall C S I T (D : Decoder S I) (f : C -> I -> C * (T + ErrorKind)) s c ops,
  dec_trace (try_map_eff D f) (s, c) ops = map or_error (snd (each_item f c (dec_trace D s ops))) /\
  snd (dec_final (try_map_eff D f) (s, c) ops) = fst (each_item f c (dec_trace D s ops)).
Proof.
  intros C S I T D f s c ops. revert s c.
  induction ops as [|o ops IH]; intros s c; [split; reflexivity|].
  destruct o as [fuel buf e| | |]; cbn [dec_trace dec_final dec_do try_map_eff dec_decode dec_finish dec_req dec_idle fst snd].
  - destruct (dec_decode D fuel s buf e) as [s' r]. cbn [fst snd each_item]. destruct (IH s' c) as [A B].
    destruct (each_item f c (dec_trace D s' ops)) as [c2 l]. cbn [fst snd map or_error] in *. rewrite A, B. auto.
  - destruct (dec_finish D s) as [s' [i|k| |]]; cbn [fst snd each_item].
    + destruct (f c i) as [c1 [t|k]]; cbn [fst snd]; destruct (IH s' c1) as [A B];
        destruct (each_item f c1 (dec_trace D s' ops)) as [c2 l]; cbn [fst snd map or_error] in *; rewrite A, B; auto.
    + destruct (IH s' c) as [A B].
      destruct (each_item f c (dec_trace D s' ops)) as [c2 l]. cbn [fst snd map or_error] in *. rewrite A, B. auto.
    + destruct (IH s' c) as [A B].
      destruct (each_item f c (dec_trace D s' ops)) as [c2 l]. cbn [fst snd map or_error] in *. rewrite A, B. auto.
    + destruct (IH s' c) as [A B].
      destruct (each_item f c (dec_trace D s' ops)) as [c2 l]. cbn [fst snd map or_error] in *. rewrite A, B. auto.
  - cbn [fst snd each_item]. destruct (IH s c) as [A B].
    destruct (each_item f c (dec_trace D s ops)) as [c2 l]. cbn [fst snd map or_error] in *. rewrite A, B. auto.
  - cbn [fst snd each_item]. destruct (IH s c) as [A B].
    destruct (each_item f c (dec_trace D s ops)) as [c2 l]. cbn [fst snd map or_error] in *. rewrite A, B. auto.
Qed.
Print Assumptions C84_try_map.

(** ** [map_err]: once for each error *)
Theorem C84_map_err : forall C S I (D : Decoder S I) (f : C -> ErrorKind -> C * ErrorKind) s c ops,
  dec_trace (map_err_eff D f) (s, c) ops = snd (each_error f c (dec_trace D s ops)) /\
  snd (dec_final (map_err_eff D f) (s, c) ops) = fst (each_error f c (dec_trace D s ops)).
Proof.
  intros C S I D f s c ops. revert s c.
  induction ops as [|o ops IH]; intros s c; [split; reflexivity|].
  destruct o as [fuel buf e| | |]; cbn [dec_trace dec_final dec_do map_err_eff dec_decode dec_finish dec_req dec_idle fst snd].
  - destruct (dec_decode D fuel s buf e) as [s' [n|k| |]]; cbn [err_eff each_error].
    2:{ destruct (f c k) as [c1 k1]. cbn [fst snd]. destruct (IH s' c1) as [A B].
        destruct (each_error f c1 (dec_trace D s' ops)) as [c2 l]. cbn [fst snd] in *. rewrite A, B. auto. }
    all: cbn [fst snd]; destruct (IH s' c) as [A B];
      destruct (each_error f c (dec_trace D s' ops)) as [c2 l]; cbn [fst snd] in *; rewrite A, B; auto.
  - destruct (dec_finish D s) as [s' [n|k| |]]; cbn [err_eff each_error].
    2:{ destruct (f c k) as [c1 k1]. cbn [fst snd]. destruct (IH s' c1) as [A B].
        destruct (each_error f c1 (dec_trace D s' ops)) as [c2 l]. cbn [fst snd] in *. rewrite A, B. auto. }
    all: cbn [fst snd]; destruct (IH s' c) as [A B];
      destruct (each_error f c (dec_trace D s' ops)) as [c2 l]; cbn [fst snd] in *; rewrite A, B; auto.
  - cbn [each_error fst snd]. destruct (IH s c) as [A B].
    destruct (each_error f c (dec_trace D s ops)) as [c2 l]; cbn [fst snd] in *; rewrite A, B; auto.
  - cbn [each_error fst snd]. destruct (IH s c) as [A B].
    destruct (each_error f c (dec_trace D s ops)) as [c2 l]; cbn [fst snd] in *; rewrite A, B; auto.
Qed.
Print Assumptions C84_map_err.
Theorem C84_map_err_encoder : forall C S I (E : Encoder S I) (f : C -> ErrorKind -> C * ErrorKind) s c ops,
  enc_trace (map_err_enc_eff E f) (s, c) ops = snd (each_enc_error f c (enc_trace E s ops)) /\
  snd (enc_final (map_err_enc_eff E f) (s, c) ops) = fst (each_enc_error f c (enc_trace E s ops)).
Proof.
  intros C S I E f s c ops. revert s c.
  induction ops as [|o ops IH]; intros s c; [split; reflexivity|].
  destruct o as [fuel buf e|fuel i| |]; cbn [enc_trace enc_final enc_do map_err_enc_eff enc_encode enc_start enc_req enc_idle fst snd].
  - destruct (enc_encode E fuel s buf e) as [[s' b'] [n|k| |]]; cbn [err_eff each_enc_error].
    2:{ destruct (f c k) as [c1 k1]. cbn [fst snd]. destruct (IH s' c1) as [A B].
        destruct (each_enc_error f c1 (enc_trace E s' ops)) as [c2 l]. cbn [fst snd] in *. rewrite A, B. auto. }
    all: cbn [fst snd]; destruct (IH s' c) as [A B];
      destruct (each_enc_error f c (enc_trace E s' ops)) as [c2 l]; cbn [fst snd] in *; rewrite A, B; auto.
  - destruct (enc_start E fuel s i) as [s' [n|k| |]]; cbn [err_eff each_enc_error].
    2:{ destruct (f c k) as [c1 k1]. cbn [fst snd]. destruct (IH s' c1) as [A B].
        destruct (each_enc_error f c1 (enc_trace E s' ops)) as [c2 l]. cbn [fst snd] in *. rewrite A, B. auto. }
    all: cbn [fst snd]; destruct (IH s' c) as [A B];
      destruct (each_enc_error f c (enc_trace E s' ops)) as [c2 l]; cbn [fst snd] in *; rewrite A, B; auto.
  - cbn [each_enc_error fst snd]. destruct (IH s c) as [A B].
    destruct (each_enc_error f c (enc_trace E s ops)) as [c2 l]; cbn [fst snd] in *; rewrite A, B; auto.
  - cbn [each_enc_error fst snd]. destruct (IH s c) as [A B].
    destruct (each_enc_error f c (enc_trace E s ops)) as [c2 l]; cbn [fst snd] in *; rewrite A, B; auto.
Qed.
Print Assumptions C84_map_err_encoder.

(** ** [map_from] and [try_map_from]: once for each item given to [start_encoding], accepted or not *)
Theorem C84_try_map_from : forall C S I T (E : Encoder S I) (f : C -> T -> C * (I + ErrorKind)) s c ops,
  enc_trace (try_map_from_eff E f) (s, c) ops = some_trace E s (snd (each_start f c ops)) /\
  snd (enc_final (try_map_from_eff E f) (s, c) ops) = fst (each_start f c ops).
Proof.
  intros C S I T E f s c ops. revert s c.
  induction ops as [|o ops IH]; intros s c; [split; reflexivity|].
  destruct o as [fuel buf e|fuel t| |]; cbn [enc_trace enc_final enc_do try_map_from_eff enc_encode enc_start enc_req enc_idle fst snd each_start].
  - destruct (enc_encode E fuel s buf e) as [[s' b'] r] eqn:X; cbn [fst snd]. destruct (IH s' c) as [A B].
    destruct (each_start f c ops) as [c2 l]; cbn [fst snd some_trace enc_do] in *; rewrite A, B, X; auto.
  - destruct (f c t) as [c1 [i|k]]; cbn [fst snd].
    + destruct (enc_start E fuel s i) as [s' r] eqn:X; cbn [fst snd]. destruct (IH s' c1) as [A B].
      destruct (each_start f c1 ops) as [c2 l]; cbn [fst snd some_trace enc_do] in *; rewrite A, B, X; auto.
    + destruct (IH s c1) as [A B].
      destruct (each_start f c1 ops) as [c2 l]; cbn [fst snd some_trace enc_do] in *; rewrite A, B; auto.
  - destruct (IH s c) as [A B]. destruct (each_start f c ops) as [c2 l]; cbn [fst snd some_trace enc_do] in *; rewrite A, B; auto.
  - destruct (IH s c) as [A B]. destruct (each_start f c ops) as [c2 l]; cbn [fst snd some_trace enc_do] in *; rewrite A, B; auto.
Qed.
Print Assumptions C84_try_map_from.
(** The closure of [map_from] refuses nothing. *)
Definition never {C T I} (f : C -> T -> C * I) : C -> T -> C * (I + ErrorKind) :=
  fun c t => let '(c', i) := f c t in (c', inl i).
Theorem C84_map_from : forall C S I T (E : Encoder S I) (f : C -> T -> C * I) s c ops,
  enc_trace (map_from_eff E f) (s, c) ops = some_trace E s (snd (each_start (never f) c ops)) /\
  snd (enc_final (map_from_eff E f) (s, c) ops) = fst (each_start (never f) c ops) /\
  Forall (fun o => exists p, o = inl p) (snd (each_start (never f) c ops)).
Proof.
  intros C S I T E f s c ops. revert s c.
  induction ops as [|o ops IH]; intros s c; [repeat split; constructor|].
  destruct o as [fuel buf e|fuel t| |]; cbn [enc_trace enc_final enc_do map_from_eff enc_encode enc_start enc_req enc_idle fst snd each_start].
  - destruct (enc_encode E fuel s buf e) as [[s' b'] r] eqn:X; cbn [fst snd]. destruct (IH s' c) as (A & B & F).
    destruct (each_start (never f) c ops) as [c2 l]; cbn [fst snd some_trace enc_do] in *; rewrite A, B, X; repeat split; eauto.
  - unfold never at 1 3 5. destruct (f c t) as [c1 i]; cbn [fst snd].
    destruct (enc_start E fuel s i) as [s' r] eqn:X; cbn [fst snd]. destruct (IH s' c1) as (A & B & F).
    destruct (each_start (never f) c1 ops) as [c2 l]; cbn [fst snd some_trace enc_do] in *; rewrite A, B, X; repeat split; eauto.
  - destruct (IH s c) as (A & B & F).
    destruct (each_start (never f) c ops) as [c2 l]; cbn [fst snd some_trace enc_do] in *; rewrite A, B; repeat split; eauto.
  - destruct (IH s c) as (A & B & F).
    destruct (each_start (never f) c ops) as [c2 l]; cbn [fst snd some_trace enc_do] in *; rewrite A, B; repeat split; eauto.
Qed.
Print Assumptions C84_map_from.

(** ** [and_then]: once for each item of the first decoder *)
Theorem C84_and_then : forall C S I S1 I1 (D0 : Decoder S I) (D1 : Decoder S1 I1) (f : C -> I -> C * S1) s c ops,
  let st := dec_final (and_then_eff (logged D0) D1 f) (and_then_new (s, []), c) ops in
  snd st = fold_left (fun c i => fst (f c i)) (snd (at_inner0 (fst st))) c.
Proof.
  intros C S I S1 I1 D0 D1 f s c ops.
  assert (K : forall ops a c1,
    c1 = fold_left (fun c i => fst (f c i)) (snd (at_inner0 a)) c ->
    let st := dec_final (and_then_eff (logged D0) D1 f) (a, c1) ops in
    snd st = fold_left (fun c i => fst (f c i)) (snd (at_inner0 (fst st))) c).
  { clear s ops. induction ops as [|o ops IH]; intros a c1 E; [exact E|].
    cbn [dec_final].
    assert (BODY : forall fuel s0 s1 off buf e,
      at_inner0 (fst (and_then_body (S0 := S * list I) D1 fuel s0 s1 off buf e)) = s0).
    { intros. unfold and_then_body. destruct (try_decode D1 fuel s1 off buf e); reflexivity. }
    assert (N : let st1 := fst (dec_do (and_then_eff (logged D0) D1 f) (a, c1) o) in
                snd st1 = fold_left (fun c i => fst (f c i)) (snd (at_inner0 (fst st1))) c).
    { destruct o as [fuel buf e| | |]; cbn [dec_do]; try exact E.
      - cbn [dec_decode and_then_eff]. destruct a as [s0 [s1|]]; cbn [at_inner0 at_inner1] in *.
        + pose proof (BODY fuel s0 s1 0 buf e) as Q.
          destruct (and_then_body D1 fuel s0 s1 0 buf e) as [a' r]. cbn [fst snd] in *. now rewrite Q.
        + pose proof (@logged_try _ _ D0 fuel s0 0 buf e) as L.
          destruct (try_decode (logged D0) fuel s0 0 buf e) as [s2 off|s2 r]; [|cbn; now rewrite L].
          pose proof (@logged_finish _ _ D0 s2) as L'.
          destruct (dec_finish (logged D0) s2) as [s3 [i|k| |]]; try (cbn; now rewrite L', L).
          destruct (f c1 i) as [c2 s1] eqn:FX.
          pose proof (BODY fuel s3 s1 off buf e) as Q.
          destruct (and_then_body D1 fuel s3 s1 off buf e) as [a' r]. cbn [fst snd] in *.
          rewrite Q, L', L, fold_left_app, <- E. cbn. now rewrite FX.
      - cbn [dec_finish and_then_eff and_then_decoder fst snd]. destruct a as [s0 [s1|]]; cbn in *; exact E. }
    destruct (fst (dec_do (and_then_eff (logged D0) D1 f) (a, c1) o)) as [a2 c2]. apply IH. exact N. }
  apply K. reflexivity.
Qed.
Print Assumptions C84_and_then.
(** Each call is that of the [and_then] of [Comb.v] with what the closure does at that time. *)
Theorem C84_and_then_call : forall C S I S1 I1 (D0 : Decoder S I) (D1 : Decoder S1 I1) (f : C -> I -> C * S1) a c o,
  (let '((a', _), b) := dec_do (and_then_eff D0 D1 f) (a, c) o in (a', b))
  = dec_do (and_then_decoder D0 D1 (fun i => snd (f c i))) a o.
Proof.
  intros C S I S1 I1 D0 D1 f a c o. destruct o as [fuel buf e| | |]; cbn [dec_do]; try reflexivity.
  - cbn [dec_decode and_then_eff and_then_decoder]. unfold and_then_decode.
    destruct (at_inner1 a) as [s1|].
    + destruct (and_then_body D1 fuel (at_inner0 a) s1 0 buf e); reflexivity.
    + destruct (try_decode D0 fuel (at_inner0 a) 0 buf e) as [s2 off|s2 r]; [|reflexivity].
      destruct (dec_finish D0 s2) as [s3 [i|k| |]]; try reflexivity.
      destruct (f c i) as [c2 s1]. cbn [snd]. destruct (and_then_body D1 fuel s3 s1 off buf e); reflexivity.
  - cbn [dec_finish and_then_eff fst snd].
    destruct (dec_finish (and_then_decoder D0 D1 (fun i => snd (f c i))) a); reflexivity.
Qed.
Print Assumptions C84_and_then_call.

(** ** Closures without effects: the models of [Comb.v] *)
Definition pure {C A B} (g : A -> B) : C -> A -> C * B := fun c a => (c, g a).
Lemma trace_bisim : forall S1 S2 I (D1 : Decoder S1 I) (D2 : Decoder S2 I) (f : S1 -> S2),
  (forall s o, dec_do D2 (f s) o = (f (fst (dec_do D1 s o)), snd (dec_do D1 s o))) ->
  forall ops s, dec_trace D2 (f s) ops = dec_trace D1 s ops.
Proof.
  intros S1 S2 I D1 D2 f H. induction ops as [|o ops IH]; intros s; cbn [dec_trace]; auto.
  rewrite H. destruct (dec_do D1 s o) as [s' b]. cbn [fst snd]. now rewrite IH.
Qed.
Theorem C84_pure : forall C S I (D : Decoder S I) s (c : C) ops,
  (forall T (g : I -> T), dec_trace (map_eff D (pure g)) (s, c) ops = dec_trace (map_decoder D g) s ops) /\
  (forall T (g : I -> T + ErrorKind),
     dec_trace (try_map_eff D (pure g)) (s, c) ops = dec_trace (try_map_decoder D g) s ops) /\
  (forall g, dec_trace (map_err_eff D (pure g)) (s, c) ops = dec_trace (map_err_decoder D g) s ops) /\
  (forall S1 I1 (D1 : Decoder S1 I1) g,
     dec_trace (and_then_eff D D1 (pure g)) (and_then_new s, c) ops
     = dec_trace (and_then_decoder D D1 g) (and_then_new s) ops).
Proof.
  intros C S I D s c ops. repeat split.
  - intros T g. apply (@trace_bisim _ _ _ (map_decoder D g) (map_eff D (pure g)) (fun s => (s, c))).
    intros s1 [fuel buf e| | |]; cbn [dec_do map_eff map_decoder dec_decode dec_finish dec_req dec_idle fst snd]; auto.
    + destruct (dec_decode D fuel s1 buf e); reflexivity.
    + destruct (dec_finish D s1) as [s' [i|k| |]]; reflexivity.
  - intros T g. apply (@trace_bisim _ _ _ (try_map_decoder D g) (try_map_eff D (pure g)) (fun s => (s, c))).
    intros s1 [fuel buf e| | |]; cbn [dec_do try_map_eff try_map_decoder dec_decode dec_finish dec_req dec_idle fst snd]; auto.
    + destruct (dec_decode D fuel s1 buf e); reflexivity.
    + destruct (dec_finish D s1) as [s' [i|k| |]]; try reflexivity. cbn [pure rbind]. destruct (g i); reflexivity.
  - intros g. apply (@trace_bisim _ _ _ (map_err_decoder D g) (map_err_eff D (pure g)) (fun s => (s, c))).
    intros s1 [fuel buf e| | |]; cbn [dec_do map_err_eff map_err_decoder dec_decode dec_finish dec_req dec_idle fst snd]; auto.
    + destruct (dec_decode D fuel s1 buf e) as [s' [i|k| |]]; reflexivity.
    + destruct (dec_finish D s1) as [s' [i|k| |]]; reflexivity.
  - intros S1 I1 D1 g.
    apply (@trace_bisim _ _ _ (and_then_decoder D D1 g) (and_then_eff D D1 (pure g)) (fun a => (a, c))).
    intros a [fuel buf e| | |]; cbn [dec_do]; try reflexivity.
    + cbn [dec_decode and_then_eff and_then_decoder]. unfold and_then_decode.
      destruct (at_inner1 a) as [s1|].
      * destruct (and_then_body D1 fuel (at_inner0 a) s1 0 buf e); reflexivity.
      * destruct (try_decode D fuel (at_inner0 a) 0 buf e) as [s2 off|s2 r]; [|reflexivity].
        destruct (dec_finish D s2) as [s3 [i|k| |]]; try reflexivity. cbn [pure].
        destruct (and_then_body D1 fuel s3 (g i) off buf e); reflexivity.
    + cbn [dec_finish and_then_eff and_then_decoder fst snd]. destruct (at_inner1 a); reflexivity.
Qed.
Print Assumptions C84_pure.
Theorem C84_pure_encoder : forall C S I (E : Encoder S I) s (c : C),
  (forall T (g : T -> I) ops, enc_trace (map_from_eff E (pure g)) (s, c) ops = enc_trace (map_from_encoder E g) s ops) /\
  (forall T (g : T -> I + ErrorKind) ops,
     enc_trace (try_map_from_eff E (pure g)) (s, c) ops = enc_trace (try_map_from_encoder E g) s ops) /\
  (forall g ops, enc_trace (map_err_enc_eff E (pure g)) (s, c) ops = enc_trace (map_err_encoder E g) s ops).
Proof.
  intros C S I E s c. repeat split.
  - intros T g ops. revert s. induction ops as [|o ops IH]; intros s; cbn [enc_trace]; auto.
    destruct o as [fuel buf e|fuel i| |]; cbn [enc_do map_from_eff map_from_encoder enc_encode enc_start enc_req enc_idle fst snd].
    + destruct (enc_encode E fuel s buf e) as [[s' b'] r]. now rewrite IH.
    + cbn [pure]. destruct (enc_start E fuel s (g i)) as [s' r]. now rewrite IH.
    + now rewrite IH.
    + now rewrite IH.
  - intros T g ops. revert s. induction ops as [|o ops IH]; intros s; cbn [enc_trace]; auto.
    destruct o as [fuel buf e|fuel i| |]; cbn [enc_do try_map_from_eff try_map_from_encoder enc_encode enc_start enc_req enc_idle fst snd].
    + destruct (enc_encode E fuel s buf e) as [[s' b'] r]. now rewrite IH.
    + cbn [pure]. destruct (g i) as [j|k]; [|now rewrite IH]. destruct (enc_start E fuel s j) as [s' r]. now rewrite IH.
    + now rewrite IH.
    + now rewrite IH.
  - intros g ops. revert s. induction ops as [|o ops IH]; intros s; cbn [enc_trace]; auto.
    destruct o as [fuel buf e|fuel i| |]; cbn [enc_do map_err_enc_eff map_err_encoder enc_encode enc_start enc_req enc_idle fst snd].
    + destruct (enc_encode E fuel s buf e) as [[s' b'] [n|k| |]]; cbn [err_eff pure rmap_err]; now rewrite IH.
    + destruct (enc_start E fuel s i) as [s' [n|k| |]]; cbn [err_eff pure rmap_err]; now rewrite IH.
    + now rewrite IH.
    + now rewrite IH.
Qed.
Print Assumptions C84_pure_encoder.

(** ** Example: a closure that numbers the items; it is called twice, not for the incomplete one *)
Example C84_example :
  let D := map_eff U8Decoder (fun n i => (Datatypes.S n, (n, i))) in
  let ops := [OpDecode 9 [x05] (eos_new false); OpFinish; OpFinish; OpDecode 9 [x07] (eos_new false); OpFinish] in
  let s := num_dec_new 1 in
  dec_trace D (s, 0) ops
    = [ObDecode (Ok 1); ObFinish (Ok (0, 5%N)); ObFinish (Err IncompleteDecoding); ObDecode (Ok 1); ObFinish (Ok (1, 7%N))] /\
  snd (dec_final D (s, 0) ops) = 2.
Proof. vm_compute. split; reflexivity. Qed.
