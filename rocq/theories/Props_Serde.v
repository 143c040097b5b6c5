(** * C62: the JSON and bincode codecs; C63: references and boxes. *)
From Coq Require Import Lia ZifyBool ZifyNat ZifyN.
From Verif Require Import Serde Universe UniverseProofs Drive Observe ObserveProofs Props_Codec Props_Adapt.
Set Implicit Arguments.

(** ** C62: decoding

    The parser sees the whole stream, however it is cut into pieces; its item is handed out; every
    rejection is [InvalidInput], and before the end of the stream there is no item. *)
Theorem C62_json_decodes_whole_stream : forall I (parse : SerdeParse I) fuel pieces last e,
  Forall (fun p => is_reached (snd p) = false) pieces -> is_reached e = true ->
  dec_trace (json_decoder parse) json_dec_new
    (map (fun p => OpDecode fuel (fst p) (snd p)) pieces
     ++ [OpIdle; OpFinish; OpDecode fuel last e; OpIdle; OpFinish; OpIdle])
  = map (fun p => ObDecode (Ok (length (fst p)))) pieces
    ++ [ObIdle false; ObFinish (Err IncompleteDecoding)]
    ++ match parse (concat (map fst pieces) ++ last) with
       | (Some i, read) =>
           [ObDecode (Ok (min (length last) (read - length (concat (map fst pieces)))));
            ObIdle true; ObFinish (Ok i); ObIdle false]
       | (None, _) => [ObDecode (Err InvalidInput); ObIdle false; ObFinish (Err IncompleteDecoding); ObIdle false]
       end.
Proof.
  intros I parse fuel pieces last e P R.
  pose proof (@C47_decoder _ (json_mono_decode parse) fuel pieces last e P R) as H.
  change (json_decoder parse) with (mono_decoder (json_mono_decode parse)).
  etransitivity; [exact H|]. unfold json_mono_decode.
  destruct (parse (concat (map fst pieces) ++ last)) as [[i|] n]; reflexivity.
Qed.
Print Assumptions C62_json_decodes_whole_stream.
Theorem C62_bincode_decodes_whole_stream : forall I (parse : SerdeParse I) fuel pieces last e,
  Forall (fun p => is_reached (snd p) = false) pieces -> is_reached e = true ->
  dec_trace (bincode_decoder parse) bincode_dec_new
    (map (fun p => OpDecode fuel (fst p) (snd p)) pieces
     ++ [OpIdle; OpFinish; OpDecode fuel last e; OpIdle; OpFinish; OpIdle])
  = map (fun p => ObDecode (Ok (length (fst p)))) pieces
    ++ [ObIdle false; ObFinish (Err IncompleteDecoding)]
    ++ match parse (concat (map fst pieces) ++ last) with
       | (Some i, read) =>
           [ObDecode (Ok (min (length last) (read - length (concat (map fst pieces)))));
            ObIdle true; ObFinish (Ok i); ObIdle false]
       | (None, _) => [ObDecode (Err InvalidInput); ObIdle false; ObFinish (Err IncompleteDecoding); ObIdle false]
       end.
Proof.
  intros I parse fuel pieces last e P R.
  pose proof (@C47_decoder _ (bincode_mono_decode parse) fuel pieces last e P R) as H.
  change (bincode_decoder parse) with (mono_decoder (bincode_mono_decode parse)).
  etransitivity; [exact H|]. unfold bincode_mono_decode.
  destruct (parse (concat (map fst pieces) ++ last)) as [[i|] n]; reflexivity.
Qed.
Print Assumptions C62_bincode_decodes_whole_stream.

(** ** C62: round trip

    If the serialiser of the other crate succeeds and its parser reads the output back, then so
    do encoder and decoder, for any output buffers and any pieces that end with the end of the
    stream. *)
Definition serde_ok {I} (parse : SerdeParse I) (ser : SerdeSer I) (i : I) (w : list byte) : Prop :=
  exists chunks, ser i = (chunks, true) /\ w = concat chunks /\ parse w = (Some i, length w).
Lemma json_wire : forall I (parse : SerdeParse I) (ser : SerdeSer I) i w,
  serde_ok parse ser i w -> fits w ->
  wire (CMono (json_mono_decode parse) (json_mono_encode ser)) w i.
Proof.
  intros I parse ser i w (chunks & S & -> & P) Ft. cbn. unfold json_mono_decode, json_mono_encode.
  rewrite P, S. split; auto. split; auto. exists chunks; auto.
Qed.
Lemma bincode_wire : forall I (parse : SerdeParse I) (ser : SerdeSer I) i w,
  serde_ok parse ser i w -> fits w ->
  wire (CMono (bincode_mono_decode parse) (bincode_mono_encode ser)) w i.
Proof. exact json_wire. Qed.
Theorem C62_json_round_trip : forall I (parse : SerdeParse I) (ser : SerdeSer I) i w,
  serde_ok parse ser i w -> fits w ->
  exists f0, forall fuel bufs sched,
    f0 + room bufs + length w < fuel -> bufs <> [] -> length w <= room bufs ->
    announced (length w) sched = true -> ends sched ->
  exists s1 s2 s3,
    enc_start (json_encoder ser) fuel json_enc_new i = (s1, Ok tt) /\
    drain (json_encoder ser) fuel s1 [] bufs = (s2, w, Ok tt) /\ enc_idle (json_encoder ser) s2 = true /\
    feed (json_decoder parse) fuel json_dec_new w sched = (s3, [], Ok tt) /\
    dec_idle (json_decoder parse) s3 = true /\ snd (dec_finish (json_decoder parse) s3) = Ok i.
Proof.
  intros I parse ser i w K Ft.
  set (c := CMono (json_mono_decode parse) (json_mono_encode ser)).
  pose proof (json_wire K Ft : wire c w i) as W.
  destruct (@C03_buffer_independence _ c w i Logic.I W) as (f1 & H1).
  destruct (@C04_round_trip _ c w i Logic.I W) as (f0 & H).
  exists (f0 + f1). intros fuel bufs sched F BN BR AN EN.
  destruct (H fuel bufs sched []) as (s1 & s2 & out & s3 & X1 & X2 & X3 & X4 & X5 & X6);
    auto.
  { rewrite app_nil_r. lia. }
  { split; auto. }
  { rewrite app_nil_r. unfold fits in Ft. unfold isize_max, u64_max in *. lia. }
  destruct (H1 fuel bufs ltac:(lia)) as (t1 & t2 & Y1 & Y2 & _).
  rewrite X1 in Y1. injection Y1 as <-. rewrite X2 in Y2.
  assert (out = w) as ->.
  { rewrite firstn_all2 in Y2 by lia. congruence. }
  rewrite app_nil_r in X4. exists s1, s2, s3.
  change (json_encoder ser) with (encoder c). change (json_decoder parse) with (decoder c).
  auto 10.
Qed.
Print Assumptions C62_json_round_trip.
Theorem C62_bincode_round_trip : forall I (parse : SerdeParse I) (ser : SerdeSer I) i w,
  serde_ok parse ser i w -> fits w ->
  exists f0, forall fuel bufs sched,
    f0 + room bufs + length w < fuel -> bufs <> [] -> length w <= room bufs ->
    announced (length w) sched = true -> ends sched ->
  exists s1 s2 s3,
    enc_start (bincode_encoder ser) fuel bincode_enc_new i = (s1, Ok tt) /\
    drain (bincode_encoder ser) fuel s1 [] bufs = (s2, w, Ok tt) /\ enc_idle (bincode_encoder ser) s2 = true /\
    feed (bincode_decoder parse) fuel bincode_dec_new w sched = (s3, [], Ok tt) /\
    dec_idle (bincode_decoder parse) s3 = true /\ snd (dec_finish (bincode_decoder parse) s3) = Ok i.
Proof. exact C62_json_round_trip. Qed.
Print Assumptions C62_bincode_round_trip.

(** Several values on one stream: behind a length of the code [k] they stand wherever a codec term
    stands, so the theorems about terms apply. *)
Theorem C62_length_prefixed : forall I (parse : SerdeParse I) (ser : SerdeSer I) i w0 w size k,
  serde_ok parse ser i w -> size i = len w -> num_bytes k (len w) w0 -> fits (w0 ++ w) ->
  let c := CPrefixed k size (CPre (CMono (json_mono_decode parse) (json_mono_encode ser))) in
  wf c /\ delim c = SD /\ wire c (w0 ++ w) i /\ reads c (w0 ++ w) i.
Proof.
  intros I parse ser i w0 w size k K Sz NB Ft c.
  assert (Fw : fits w). { unfold fits in *. rewrite len_app in Ft. lia. }
  assert (W : wire c (w0 ++ w) i).
  { split; auto. exists w0, w. split; auto. split; [exact (json_wire K Fw)|auto]. }
  split; [cbn; auto|]. split; [reflexivity|]. split; auto. apply (proj1 wire_reads _ c _ _ W).
Qed.
Print Assumptions C62_length_prefixed.

(** ** C62: a buffer given to [decode_from_bytes] is accepted exactly if the parser accepts it and
    reads all of it. *)
Theorem C62_json_from_bytes : forall I (parse : SerdeParse I) buf i fuel,
  (forall w, snd (parse w) <= length w) ->
  snd (decode_from_bytes (json_decoder parse) (S fuel) json_dec_new buf) = Ok i
  <-> parse buf = (Some i, length buf).
Proof.
  intros I parse buf i fuel B. specialize (B buf). unfold decode_from_bytes.
  cbn [dec_decode json_decoder mono_decoder json_dec_new mono_dec_new]. unfold mono_decode, json_mono_decode.
  destruct (parse buf) as [[j|] n] eqn:E; cbn [snd] in *; cbn; rewrite E.
  - rewrite Nat.sub_0_r, Nat.min_r by lia. destruct (Nat.eqb_spec n (length buf)) as [->|NE]; cbn.
    + split; congruence.
    + split; [discriminate|]. intros [= _ ->]. congruence.
  - split; discriminate.
Qed.
Print Assumptions C62_json_from_bytes.
Theorem C62_bincode_from_bytes : forall I (parse : SerdeParse I) buf i fuel,
  (forall w, snd (parse w) <= length w) ->
  snd (decode_from_bytes (bincode_decoder parse) (S fuel) bincode_dec_new buf) = Ok i
  <-> parse buf = (Some i, length buf).
Proof. exact C62_json_from_bytes. Qed.
Print Assumptions C62_bincode_from_bytes.

(** ** C62: a value that cannot be serialised is reported as [InvalidInput] by the first call and
    dropped; the encoder takes the next item. *)
Theorem C62_json_unserialisable : forall I (ser : SerdeSer I) i j fuel buf e,
  snd (ser i) = false -> exists s1 s2 s3 buf',
  enc_start (json_encoder ser) fuel json_enc_new i = (s1, Ok tt) /\
  enc_encode (json_encoder ser) fuel s1 buf e = (s2, buf', Err InvalidInput) /\
  enc_idle (json_encoder ser) s2 = true /\
  enc_start (json_encoder ser) fuel s2 j = (s3, Ok tt).
Proof.
  intros I ser i j fuel buf e S. destruct (ser i) as [chunks ok] eqn:E. cbn in S. subst ok.
  destruct (@C47_encoder_error _ (json_mono_encode ser) i j chunks InvalidInput fuel buf e)
    as (s1 & s2 & b & s3 & buf' & X1 & X2 & X3 & _ & X4).
  { unfold json_mono_encode. now rewrite E. }
  exists s1, s2, s3, buf'. auto.
Qed.
Print Assumptions C62_json_unserialisable.
Theorem C62_bincode_unserialisable : forall I (ser : SerdeSer I) i j fuel buf e,
  snd (ser i) = false -> exists s1 s2 s3 buf',
  enc_start (bincode_encoder ser) fuel bincode_enc_new i = (s1, Ok tt) /\
  enc_encode (bincode_encoder ser) fuel s1 buf e = (s2, buf', Err InvalidInput) /\
  enc_idle (bincode_encoder ser) s2 = true /\
  enc_start (bincode_encoder ser) fuel s2 j = (s3, Ok tt).
Proof. exact C62_json_unserialisable. Qed.
Print Assumptions C62_bincode_unserialisable.

(** Instances: a strict parser (as [serde_json::from_reader]: it reads on to the end and rejects
    anything after the value) and one that stops after the value (as [bincode::deserialize_from]),
    of a byte written as itself; values above 127 cannot be written. *)
Definition ex_strict : SerdeParse N := fun w =>
  match w with [b] => (Some (Byte.to_N b), 1) | _ => (None, length w) end.
Definition ex_prefix : SerdeParse N := fun w =>
  match w with b :: _ => (Some (Byte.to_N b), 1) | _ => (None, 0) end.
Definition ex_ser : SerdeSer N := fun n =>
  match Byte.of_N n with Some b => ([[]; [b]], (n <? 128)%N) | None => ([], false) end.
Example C62_example :
  serde_ok ex_strict ex_ser 5%N [x05] /\ serde_ok ex_prefix ex_ser 5%N [x05] /\ fits [x05] /\
  snd (ex_ser 200%N) = false /\ (forall w, snd (ex_strict w) <= length w) /\
  (forall w, snd (ex_prefix w) <= length w) /\
  num_bytes NU16be (len [x05]) [x00; x01] /\ fits ([x00; x01] ++ [x05]).
Proof.
  repeat split; try discriminate; try (exists [[]; [x05]]; repeat split).
  - intros [|b [|b' w]]; cbn; lia.
  - intros [|b w]; cbn; lia.
Qed.

(** ** C62 for trailing data fails: a parser that stops after its value sees neither the rest of
    the pieces already taken nor that they exist.  The same stream is refused in one piece and
    accepted in two. *)
Theorem C62_trailing_data_refuted : exists (parse : SerdeParse N) junk,
  junk <> [] /\
  snd (decode_from_bytes (bincode_decoder parse) 9 bincode_dec_new ([x05] ++ junk)) = Err InvalidInput /\
  dec_trace (bincode_decoder parse) bincode_dec_new
    [OpDecode 9 ([x05] ++ junk) Unknown; OpDecode 9 [] (Finite 0); OpFinish]
  = [ObDecode (Ok (length ([x05] ++ junk))); ObDecode (Ok 0); ObFinish (Ok 5%N)].
Proof. exists ex_prefix, [xff]. split; [discriminate|]. split; reflexivity. Qed.
Print Assumptions C62_trailing_data_refuted.

(** After an error the bytes of the earlier pieces are still there: a decoder that has refused one
    value refuses the next one too, whereas a fresh decoder accepts it. *)
Theorem C62_reuse_after_error_refuted : exists (parse : SerdeParse N) s1 s2,
  dec_decode (json_decoder parse) 9 json_dec_new [x01; x02] Unknown = (s1, Ok 2) /\
  dec_decode (json_decoder parse) 9 s1 [] (Finite 0) = (s2, Err InvalidInput) /\
  snd (dec_decode (json_decoder parse) 9 s2 [x05] (Finite 0)) = Err InvalidInput /\
  snd (dec_decode (json_decoder parse) 9 json_dec_new [x05] (Finite 0)) = Ok 1.
Proof. exists ex_strict. do 2 eexists. repeat split; reflexivity. Qed.
Print Assumptions C62_reuse_after_error_refuted.

(** ** C63: references and boxes

    A codec used through [&mut] or [Box] answers every call as the codec itself does, and leaves
    it in the same state; so does everything built from it. *)
Theorem C63_forwarding : forall S I (D : Decoder S I) (E : Encoder S I),
  ref_decoder D = D /\ box_decoder D = D /\ ref_encoder E = E /\ box_encoder E = E.
Proof. intros S I [] []; repeat split. Qed.
Print Assumptions C63_forwarding.
