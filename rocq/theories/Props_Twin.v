(** * C80: a composition sees only the behaviour of its components; C63: borrowing. *)
From Verif Require Import Twin TwinProofs Serde Io Fixnum.
Set Implicit Arguments.

(** ** C80

    Two decoders that no sequence of calls can tell apart match in the sense of [dmatch]... *)
Theorem C80_own : forall S S' I (D : Decoder S I) (D' : Decoder S' I), dmatch (dalike D D') D D'.
Proof. exact dalike_match. Qed.
Print Assumptions C80_own.
Theorem C80_own_encoder : forall S S' I (E : Encoder S I) (E' : Encoder S' I), ematch (ealike E E') E E'.
Proof. exact ealike_match. Qed.
Print Assumptions C80_own_encoder.

(** ...and whatever is built from matching components answers every sequence of calls in the same
    way, whatever the settings of the wrappers; afterwards the states are again related. *)
Theorem C80_decoders : forall S S' I (D : Decoder S I) (D' : Decoder S' I) R s s',
  twin D D' R -> R s s' -> dmatch R D D' /\ dalike D D' s s'.
Proof.
  intros S S' I D D' R s s' T Hs. apply twin_match in T. split; [exact T|].
  intros ops. now apply (dmatch_trace T).
Qed.
Print Assumptions C80_decoders.
Theorem C80_encoders : forall S S' I (E : Encoder S I) (E' : Encoder S' I) R s s',
  etwin E E' R -> R s s' -> ematch R E E' /\ ealike E E' s s'.
Proof.
  intros S S' I D D' R s s' T Hs. apply etwin_match in T. split; [exact T|].
  intros ops. now apply (ematch_trace T).
Qed.
Print Assumptions C80_encoders.

(** The functions that run a codec return the same, have read or written the same, and leave codecs
    that cannot be told apart. *)
Theorem C80_run_decoder : forall S S' I (D : Decoder S I) (D' : Decoder S' I) s s',
  dalike D D' s s' ->
  (forall fuel buf, exists a a' r,
     decode_from_bytes D fuel s buf = (a, r) /\ decode_from_bytes D' fuel s' buf = (a', r) /\
     dalike D D' a a') /\
  (forall fuel ifuel rd, exists a a' rd' r,
     decode_exact D fuel ifuel s rd = (a, rd', r) /\ decode_exact D' fuel ifuel s' rd = (a', rd', r) /\
     dalike D D' a a') /\
  (forall fuel b, exists a a' b' r,
     decode_from_read_buf D fuel s b = (a, b', r) /\ decode_from_read_buf D' fuel s' b = (a', b', r) /\
     dalike D D' a a').
Proof.
  intros S S' I D D' s s' H. pose proof (dalike_match (D := D) (D' := D')) as M. split; [|split].
  - intros fuel buf. now apply (dm_decode_from_bytes M).
  - intros fuel ifuel rd. now apply (dm_decode_exact M).
  - intros fuel b. unfold decode_from_read_buf.
    destruct (window _ _ _) as [w|]; [|do 4 eexists; split; [reflexivity|split; [reflexivity|exact H]]].
    destruct (dm_decode M H fuel w (eos_new (st_is_eos (rb_state b)))) as (a & a' & r & -> & -> & Ha).
    destruct r; do 4 eexists; (split; [reflexivity|split; [reflexivity|exact Ha]]).
Qed.
Print Assumptions C80_run_decoder.
Theorem C80_run_encoder : forall S S' I (E : Encoder S I) (E' : Encoder S' I) s s',
  ealike E E' s s' ->
  (forall fuel i, exists a a' r,
     encode_into_bytes E fuel s i = (a, r) /\ encode_into_bytes E' fuel s' i = (a', r) /\
     ealike E E' a a') /\
  (forall fuel w, exists a a' w' r,
     encode_all E fuel s w = (a, w', r) /\ encode_all E' fuel s' w = (a', w', r) /\
     ealike E E' a a') /\
  (forall fuel b, exists a a' b' r,
     encode_to_write_buf E fuel s b = (a, b', r) /\ encode_to_write_buf E' fuel s' b = (a', b', r) /\
     ealike E E' a a') /\
  (forall fuel b task, exists a a' b' r,
     encode_to_write_buf_async E fuel s b task = (a, b', r) /\
     encode_to_write_buf_async E' fuel s' b task = (a', b', r) /\ ealike E E' a a').
Proof.
  intros S S' I E E' s s' H. pose proof (ealike_match (E := E) (E' := E')) as M.
  assert (W : forall fuel b, exists a a' b' r,
     encode_to_write_buf E fuel s b = (a, b', r) /\ encode_to_write_buf E' fuel s' b = (a', b', r) /\
     ealike E E' a a').
  { intros fuel b. unfold encode_to_write_buf.
    destruct (slice_from _ _) as [w|]; [|do 4 eexists; split; [reflexivity|split; [reflexivity|exact H]]].
    destruct (em_encode M H fuel w (eos_new (st_is_eos (wb_state b)))) as (a & a' & d & r & -> & -> & Ha).
    destruct r; do 4 eexists; (split; [reflexivity|split; [reflexivity|exact Ha]]). }
  split; [|split; [|split]].
  - intros fuel i. now apply (em_encode_into_bytes M).
  - intros fuel w. now apply (em_encode_all M).
  - exact W.
  - intros fuel b task. unfold encode_to_write_buf_async.
    destruct (W fuel b) as (a & a' & b' & r & -> & -> & Ha).
    destruct r; do 4 eexists; (split; [reflexivity|split; [reflexivity|exact Ha]]).
Qed.
Print Assumptions C80_run_encoder.

(** *** A concrete case

    [omit(false)] with the [Some] taken off again is not the same program as the decoder inside, but
    it answers every call alike; so do the messages built from the two. *)
Definition ex_unwrap (o : option N) : N := match o with Some n => n | None => 0%N end.
Definition ex_roundabout : Decoder (Omittable NumDec) N := map_decoder (omit_decoder U16beDecoder) ex_unwrap.
Definition ex_same (st : Omittable NumDec) (s : NumDec) : Prop := om_inner st = s /\ om_omit st = false.
Lemma ex_roundabout_match : dmatch ex_same ex_roundabout U16beDecoder.
Proof.
  intros [s o] s' [<- E]; cbn in E; subst o. intros [fuel buf e| | |]; cbn.
  - destruct (copy_decode vec_box s buf e) as [a r]; cbn. unfold ex_same; auto.
  - destruct (copy_finish vec_box s) as [a r]; cbn. unfold ex_same. destruct r; cbn; auto.
  - unfold ex_same; auto.
  - unfold ex_same; auto.
Qed.
Definition ex_message {S} (D : Decoder S N) :=
  collect_decoder (length_decoder (tuple2_decoder D (collectn_decoder D))).
Definition ex_message_new {S} (s : S) := collect_new (I := N * list N) (length_new (s, collectn_new (I := N) s 2) 6).
Example C80_example :
  dalike (ex_message ex_roundabout) (ex_message U16beDecoder)
    (ex_message_new (mkOmit (num_dec_new 2) false)) (ex_message_new (num_dec_new 2)).
Proof.
  eapply (C80_decoders (D := ex_message ex_roundabout) (D' := ex_message U16beDecoder)).
  - unfold ex_message. apply tw_collect, tw_length, tw_tuple, twp_snoc; [apply twp_one|apply tw_collectn];
      apply tw_own, ex_roundabout_match.
  - cbn. unfold both_rel, ex_same; cbn. auto 10.
Qed.
Example C80_example_run :
  snd (decode_from_bytes (ex_message ex_roundabout) 20 (ex_message_new (mkOmit (num_dec_new 2) false))
         [x00; x01; x00; x02; x00; x03]) = Ok [(1%N, [2%N; 3%N])].
Proof. reflexivity. Qed.
(** Encoders: [optional], given only [Some]. *)
Definition ex_detour : Encoder NumEnc N := map_from_encoder (optional_encoder U16beEncoder) (@Some N).
Example C80_encoder_example :
  ealike (repeat_encoder ex_detour) (repeat_encoder U16beEncoder)
    (repeat_new num_enc_new) (repeat_new num_enc_new) /\
  snd (encode_into_bytes (repeat_encoder ex_detour) 20 (repeat_new num_enc_new) [1%N; 258%N])
  = Ok [x00; x01; x01; x02].
Proof.
  split; [|reflexivity].
  eapply (C80_encoders (E := repeat_encoder ex_detour) (E' := repeat_encoder U16beEncoder)).
  - apply etw_repeat, etw_own with (R := eq). intros s s' <- [fuel buf e|fuel i| |]; cbn; auto.
  - cbn. auto.
Qed.

(** ** C63: borrowing

    A reference designates a place in memory; the laws of a variable. *)
Definition lawful {M S} (p : Place M S) : Prop :=
  (forall m s, pl_get p (pl_put p m s) = s) /\
  (forall m s s', pl_put p (pl_put p m s) s' = pl_put p m s') /\
  (forall m, pl_put p m (pl_get p m) = m).

(** Through [&mut] every call answers as the codec itself does; the codec is left in the state in
    which the call itself leaves it, and nothing else in memory has changed: the memory is [m0] with
    that state in the place of the codec. *)
Theorem C63_borrow : forall M S (p : Place M S), lawful p -> forall m0,
  (forall I (D : Decoder S I), dmatch (fun m s => m = pl_put p m0 s) (mut_decoder p D) D) /\
  (forall I (E : Encoder S I), ematch (fun m s => m = pl_put p m0 s) (mut_encoder p E) E) /\
  (forall exact s, mut_exact p exact (pl_put p m0 s) = exact s) /\
  (forall T (start : TaggedDecode S T) s tag,
     mut_tagged p start (pl_put p m0 s) tag = (pl_put p m0 (fst (start s tag)), snd (start s tag))) /\
  (forall T (start : TryTaggedDecode S T) s tag,
     mut_try_tagged p start (pl_put p m0 s) tag = (pl_put p m0 (fst (start s tag)), snd (start s tag))).
Proof.
  intros M S p (GP & PP & PG) m0. split; [|split; [|split; [|split]]].
  - intros I D m s -> [fuel buf e| | |]; cbn; unfold via; rewrite GP.
    + destruct (dec_decode D fuel s buf e); cbn. auto.
    + destruct (dec_finish D s); cbn. auto.
    + auto.
    + auto.
  - intros I E m s -> [fuel buf e|fuel i| |]; cbn; unfold via; rewrite GP.
    + destruct (enc_encode E fuel s buf e) as [[a b] r]; cbn. auto.
    + destruct (enc_start E fuel s i); cbn. auto.
    + auto.
    + auto.
  - intros exact s. unfold mut_exact. now rewrite GP.
  - intros T start s tag. unfold mut_tagged, via. rewrite GP. destruct (start s tag); cbn. now rewrite PP.
  - intros T start s tag. unfold mut_try_tagged, via. rewrite GP. destruct (start s tag); cbn. now rewrite PP.
Qed.
Print Assumptions C63_borrow.

(** So for every sequence of calls; and a composition made around the reference behaves as one that
    owns the codec (here [length], for all others [C80_decoders] with [C63_borrow]).  When the
    composition is dropped, the variable holds the codec in the state it has inside the owning
    composition. *)
Theorem C63_borrow_calls : forall M S (p : Place M S), lawful p ->
  (forall I (D : Decoder S I) m ops,
     dec_trace (mut_decoder p D) m ops = dec_trace D (pl_get p m) ops /\
     dec_end (mut_decoder p D) m ops = pl_put p m (dec_end D (pl_get p m) ops)) /\
  (forall I (E : Encoder S I) m ops,
     enc_trace (mut_encoder p E) m ops = enc_trace E (pl_get p m) ops /\
     enc_end (mut_encoder p E) m ops = pl_put p m (enc_end E (pl_get p m) ops)).
Proof.
  intros M S p L. assert (PG : forall m, m = pl_put p m (pl_get p m)) by (intros; symmetry; apply L).
  split.
  - intros I D m ops. destruct (C63_borrow L m) as [B _]. specialize (B I D). split.
    + apply (dmatch_trace B). apply PG.
    + apply (dmatch_end B). apply PG.
  - intros I E m ops. destruct (C63_borrow L m) as (_ & B & _). specialize (B I E). split.
    + apply (ematch_trace B). apply PG.
    + apply (ematch_end B). apply PG.
Qed.
Print Assumptions C63_borrow_calls.
Theorem C63_borrow_composed : forall M S I (p : Place M S) (D : Decoder S I), lawful p -> forall m n ops,
  dec_trace (length_decoder (mut_decoder p D)) (length_new m n) ops =
  dec_trace (length_decoder D) (length_new (pl_get p m) n) ops /\
  ln_inner (dec_end (length_decoder (mut_decoder p D)) (length_new m n) ops) =
  pl_put p m (ln_inner (dec_end (length_decoder D) (length_new (pl_get p m) n) ops)).
Proof.
  intros M S I p D L m n ops. destruct (C63_borrow L m) as [B _]. specialize (B I D).
  pose proof (twin_match (tw_length (tw_own B))) as T.
  assert (R0 : m = pl_put p m (pl_get p m)) by (symmetry; apply L).
  split.
  - apply (dmatch_trace T). cbn. auto.
  - refine (proj1 (dmatch_end T ops (length_new m n) (length_new (pl_get p m) n) _)). cbn. auto.
Qed.
Print Assumptions C63_borrow_composed.

(** The second of two local variables; reading the first byte of a [u16] through a reference to it. *)
Definition ex_var {A B} : Place (A * B) B := mkPlace (@snd A B) (fun m s => (fst m, s)).
Example C63_borrow_example :
  lawful (@ex_var bool NumDec) /\
  dec_end (length_decoder (mut_decoder (@ex_var bool NumDec) U16beDecoder))
    (length_new (true, num_dec_new 2) 2) [OpDecode 9 [x01] Unknown]
  = mkLength (true, mkCopyDec [x01; x00] 1) 2 1.
Proof. split; [|reflexivity]. repeat split. now intros [a b]. Qed.
