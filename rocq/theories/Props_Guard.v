(** * Calls at the wrong time: start_encoding on a busy encoder (C50), finish_decoding on an
      incomplete decoder (C56). *)
From Coq Require Import Lia ZifyBool ZifyNat ZifyN.
From Verif Require Import ObserveProofs Fixnum Utf8 Tuple Props_Comb Props_Adapt.
Set Implicit Arguments.

(** ** C50 *)

(** While [E] is in the middle of an item, [start_encoding] is refused with error [k] and every
    later call, whatever it is, returns what it would have returned otherwise. *)
Definition refuses {S I} (E : Encoder S I) (s : S) (i : I) (k : ErrorKind) : Prop :=
  forall fuel ops, enc_trace E s (OpStart fuel i :: ops) = ObStart (Err k) :: enc_trace E s ops.
Lemma refuses_intro : forall S I (E : Encoder S I) s i k,
  (forall fuel, enc_start E fuel s i = (s, Err k)) -> refuses E s i k.
Proof. intros S I E s i k H fuel ops. cbn [enc_trace enc_do]. now rewrite H. Qed.

Theorem C50_bytes : forall B (BX : ByteBox B) s i,
  enc_idle (bytes_encoder BX) s = false -> refuses (bytes_encoder BX) s i EncoderFull.
Proof. intros B BX s i H. apply refuses_intro. intros. cbn in *. unfold bytes_start. now rewrite H. Qed.
Theorem C50_utf8 : forall s i, enc_idle utf8_encoder s = false -> refuses utf8_encoder s i EncoderFull.
Proof. intros. now apply C50_bytes. Qed.
Print Assumptions C50_utf8.
Theorem C50_padding : forall s b, enc_idle pad_encoder s = false -> refuses pad_encoder s b EncoderFull.
Proof. intros [c|] b H; [|discriminate]. now apply refuses_intro. Qed.
Print Assumptions C50_padding.
Theorem C50_monolithic : forall I (f : MonoEncode I) s i,
  enc_idle (mono_encoder f) s = false -> refuses (mono_encoder f) s i EncoderFull.
Proof. intros I f s i H. apply refuses_intro. intros. cbn in *. now rewrite H. Qed.
Theorem C50_repeat : forall S I (E : Encoder S I) s items,
  enc_idle (repeat_encoder E) s = false -> refuses (repeat_encoder E) s items EncoderFull.
Proof. intros S I E s i H. apply refuses_intro. intros. cbn in *. now rewrite H. Qed.
(** The numbers: the range check of the 24, 40, 48 and 56 bit types comes first. *)
Theorem C50_numbers : forall T (f : T -> list byte + ErrorKind) s i,
  enc_idle (num_encoder f) s = false ->
  refuses (num_encoder f) s i (match f i with inl _ => EncoderFull | inr k => k end).
Proof.
  intros T f s i H. apply refuses_intro. intros. cbn in *. destruct (f i); auto.
  unfold bytes_start. now rewrite H.
Qed.
Print Assumptions C50_bytes.
Print Assumptions C50_monolithic.
Print Assumptions C50_repeat.
Print Assumptions C50_numbers.

(** The adapters that pass items on behave like what they wrap, over any encoder that refuses
    items while busy. *)
Definition busy_refuses {S I} (E : Encoder S I) : Prop :=
  forall fuel s i, enc_idle E s = false -> exists k, enc_start E fuel s i = (s, Err k).
Theorem C50_adapters : forall S I (E : Encoder S I), busy_refuses E ->
  (forall T (f : T -> I), busy_refuses (map_from_encoder E f)) /\
  (forall T (f : T -> I + ErrorKind), busy_refuses (try_map_from_encoder E f)) /\
  (forall f, busy_refuses (map_err_encoder E f)) /\
  busy_refuses (max_encoder E) /\
  busy_refuses (slice_encoder E) /\
  (forall fuel s i, enc_idle (optional_encoder E) s = false ->
     exists k, enc_start (optional_encoder E) fuel s (Some i) = (s, Err k)).
Proof.
  intros S I E H. split; [|split; [|split; [|split; [|split]]]].
  - intros T f fuel s i id. now apply H.
  - intros T f fuel s i id. cbn in *. destruct (f i); eauto.
  - intros f fuel s i id. destruct (H fuel s i id) as (k & X). cbn. rewrite X. cbn. eauto.
  - intros fuel [s c m] i id. destruct (H fuel s i id) as (k & X). cbn. rewrite X. eauto.
  - intros fuel [s c] i id. destruct (H fuel s i id) as (k & X). cbn. rewrite X. eauto.
  - intros fuel s i id. now apply H.
Qed.
Print Assumptions C50_adapters.
Example C50_adapters_example : busy_refuses (bytes_encoder vec_box) /\
  enc_idle (bytes_encoder vec_box) (mkBytesEnc (Some [x01; x02]) 1) = false.
Proof.
  split; [|reflexivity]. intros fuel s i H. exists EncoderFull. cbn in *. unfold bytes_start. now rewrite H.
Qed.
(** A busy [optional] accepts [None], which has no bytes: the item in progress is not disturbed. *)
Theorem C50_optional_none_refuted : forall S I (E : Encoder S I) fuel s ops,
  enc_trace (optional_encoder E) s (OpStart fuel None :: ops)
    = ObStart (Ok tt) :: enc_trace (optional_encoder E) s ops.
Proof. reflexivity. Qed.
Print Assumptions C50_optional_none_refuted.
(** pre_encode keeps what is still to be output; the inner encoder has worked on the new item, so
    only the calls up to the next [start_encoding] are unaffected. *)
Fixpoint no_start {I} (ops : list (enc_op I)) : Prop :=
  match ops with
  | [] => True
  | OpStart _ _ :: _ => False
  | _ :: ops' => no_start ops'
  end.
Theorem C50_pre_encode : forall S I (E : Encoder S I) fuel s i ops,
  enc_idle (pre_encoder E) s = false -> no_start ops -> exists r,
  enc_trace (pre_encoder E) s (OpStart fuel i :: ops)
    = ObStart r :: enc_trace (pre_encoder E) s ops /\ r <> Ok tt.
Proof.
  intros S I E fuel s i ops id NS.
  assert (A : forall ops s s', pre_encoded s = pre_encoded s' -> no_start ops ->
            enc_trace (pre_encoder E) s ops = enc_trace (pre_encoder E) s' ops).
  { clear. induction ops as [|[fuel buf e|fuel i| |] ops IH]; intros s s' X NS; auto.
    - cbn [enc_trace enc_do enc_encode pre_encoder]. rewrite X.
      destruct (bytes_encode vec_box (pre_encoded s') buf e) as [[b b'] r]. f_equal. now apply IH.
    - destruct NS.
    - cbn [enc_trace enc_do enc_req pre_encoder]. rewrite X. f_equal. now apply IH.
    - cbn [enc_trace enc_do enc_idle pre_encoder]. rewrite X. f_equal. now apply IH. }
  cbn [enc_trace enc_do enc_start pre_encoder]. unfold pre_start. cbn in id.
  destruct (encode_into_bytes E fuel (pre_inner s) i) as [s' [b|k| |]].
  - unfold bytes_start. rewrite id. exists (Err EncoderFull). split; [|discriminate].
    f_equal. now apply A.
  - exists (Err k). split; [|discriminate]. cbn. f_equal. now apply A.
  - exists Panic. split; [|discriminate]. cbn. f_equal. now apply A.
  - exists OutOfFuel. split; [|discriminate]. cbn. f_equal. now apply A.
Qed.
Print Assumptions C50_pre_encode.
(** length(n): once a byte of the item is out. *)
Theorem C50_length : forall S I (E : Encoder S I) n s0 t st i,
  encode_ok_calls (length_encoder E) (length_new s0 n) t st -> t <> 0 ->
  refuses (length_encoder E) st i EncoderFull.
Proof.
  intros S I E n s0 t st i H T. destruct (C58_length_encoder 0 H) as (_ & B). specialize (B T).
  apply refuses_intro. intros fuel. cbn. unfold length_set_expected in B.
  destruct (ln_remaining st =? ln_expected st)%N; [discriminate|]. reflexivity.
Qed.
Print Assumptions C50_length.
Example C50_length_example : exists st,
  encode_ok_calls (length_encoder (bytes_encoder vec_box))
     (length_new (mkBytesEnc (Some [x01; x02]) 0) 2) 1 st.
Proof.
  eexists. change 1 with (0 + 1).
  eapply eok_call with (fuel := 9) (buf := [x00]) (e := Unknown); [constructor|reflexivity|reflexivity].
Qed.
(** A tuple does not: when its first component is done and the second is still writing, the
    refused item has already been given to the first one, and its bytes come out. *)
Theorem C50_tuple_refuted : exists (s : BytesEnc (list byte) * BytesEnc (list byte)) i,
  let E := tuple_of_enc_parts (ep_snoc (ep_one (bytes_encoder vec_box)) (bytes_encoder vec_box)) in
  (exists s0, enc_start E 9 (bytes_enc_new, bytes_enc_new) ([x01], [x02; x03]) = (s0, Ok tt) /\
              enc_encode E 9 s0 [x00; x00] Unknown = (s, [x01; x02], Ok 2)) /\
  enc_idle E s = false /\
  enc_trace E s [OpStart 9 i; OpEncode 9 [x00; x00; x00] Unknown]
    = [ObStart (Err EncoderFull); ObEncode [x04; x03; x00] (Ok 2)] /\
  enc_trace E s [OpEncode 9 [x00; x00; x00] Unknown] = [ObEncode [x03; x00; x00] (Ok 1)].
Proof.
  eexists. exists ([x04], [x05]). cbn zeta. split.
  { eexists. split; reflexivity. }
  split; [reflexivity|]. split; reflexivity.
Qed.
Print Assumptions C50_tuple_refuted.

(** ** C56 *)

(** As long as [D] is not idle, [finish_decoding] says so and every later call returns what it
    would have returned otherwise. *)
Definition finish_guarded {S I} (D : Decoder S I) : Prop :=
  forall s, dec_idle D s = false -> forall ops,
    dec_trace D s (OpFinish :: ops) = ObFinish (Err IncompleteDecoding) :: dec_trace D s ops.
Definition keeps_unfinished {S I} (D : Decoder S I) : Prop :=
  forall s, dec_idle D s = false -> dec_finish D s = (s, Err IncompleteDecoding).
Lemma keeps_guarded : forall S I (D : Decoder S I), keeps_unfinished D -> finish_guarded D.
Proof. intros S I D H s id ops. cbn [dec_trace dec_do]. now rewrite (H s id). Qed.

Lemma keeps_copy : forall B (BX : ByteBox B), keeps_unfinished (copy_decoder BX).
Proof. intros B BX s H. cbn in *. unfold copy_finish. now rewrite H. Qed.
Lemma keeps_bytes : forall B (BX : ByteBox B), keeps_unfinished (bytes_decoder BX).
Proof. intros B BX s H. cbn in *. unfold bytes_finish. now rewrite H. Qed.
Theorem C56_primitives :
  (forall B (BX : ByteBox B), finish_guarded (copy_decoder BX)) /\
  (forall B (BX : ByteBox B), finish_guarded (bytes_decoder BX)) /\
  finish_guarded rem_decoder /\ finish_guarded pad_decoder /\ finish_guarded null_decoder /\
  (forall I (f : MonoDecode I), finish_guarded (mono_decoder f)) /\
  (forall T (f : list byte -> T), finish_guarded (num_decoder f)).
Proof.
  split; [|split; [|split; [|split; [|split; [|split]]]]]; intros; apply keeps_guarded.
  - apply keeps_copy.
  - apply keeps_bytes.
  - intros s H. cbn in *. unfold rem_finish. now rewrite H.
  - intros s H. cbn in *. now rewrite H.
  - intros s H. discriminate.
  - intros s H. cbn in *. destruct (md_item s); [discriminate|reflexivity].
  - intros s H. change (cd_off s =? length (cd_bytes s) = false) in H.
    cbn [dec_finish num_decoder copy_decoder]. unfold copy_finish. cbn [bx_ref vec_box]. now rewrite H.
Qed.
Print Assumptions C56_primitives.
(** collect, collectn and peekable over any decoder. *)
Theorem C56_containers : forall S I (D : Decoder S I),
  finish_guarded (collect_decoder D) /\ finish_guarded (collectn_decoder D) /\
  finish_guarded (peek_decoder D).
Proof.
  intros S I D. split; [|split]; apply keeps_guarded; intros s H; cbn in *.
  - now rewrite H.
  - now rewrite H.
  - destruct (pk_item s); [discriminate|reflexivity].
Qed.
Print Assumptions C56_containers.
(** The adapters over a decoder with the property. *)
Theorem C56_adapters : forall S I (D : Decoder S I), keeps_unfinished D ->
  (forall T (f : I -> T), keeps_unfinished (map_decoder D f)) /\
  (forall T (f : I -> T + ErrorKind), keeps_unfinished (try_map_decoder D f)) /\
  keeps_unfinished (omit_decoder D) /\ keeps_unfinished (slice_decoder D) /\
  (forall s, (0 < ln_remaining s)%N -> dec_finish (length_decoder D) s = (s, Err IncompleteDecoding)) /\
  (forall f s, dec_idle D s = false -> dec_finish (map_err_decoder D f) s = (s, Err (f IncompleteDecoding))).
Proof.
  intros S I D H. split; [|split; [|split; [|split; [|split]]]].
  - intros T f s id. cbn in *. now rewrite (H s id).
  - intros T f s id. cbn in *. now rewrite (H s id).
  - intros [s o] id. cbn in *. destruct o; [discriminate|]. cbn in id. now rewrite (H s id).
  - intros [s c] id. cbn in *. now rewrite (H s id).
  - intros s L. cbn. now replace (ln_remaining s =? 0)%N with false by lia.
  - intros f s id. cbn. now rewrite (H s id).
Qed.
Print Assumptions C56_adapters.
Theorem C56_utf8 : forall S (D : Decoder S (list byte)),
  keeps_unfinished D -> keeps_unfinished (utf8_decoder D).
Proof. intros S D H s id. cbn in *. now rewrite (H s id). Qed.
Print Assumptions C56_utf8.
Example C56_example :
  keeps_unfinished ex_two /\ dec_idle ex_two (mkCopyDec [x01; x00] 1) = false /\
  dec_trace ex_two ex_two_new [OpDecode 9 [x01] Unknown; OpFinish; OpDecode 9 [x02] Unknown; OpFinish]
    = [ObDecode (Ok 1); ObFinish (Err IncompleteDecoding); ObDecode (Ok 1); ObFinish (Ok [x01; x02])].
Proof. split; [apply keeps_copy|]. split; reflexivity. Qed.

(** The compositions that lose state: a tuple forgets the components that were complete, and_then
    forgets the header, max_bytes restarts its budget, maybe_eos forgets that the item has
    begun. *)
Theorem C56_tuple_refuted :
  let D := tuple_of_dec_parts (dp_snoc (dp_one ex_two) ex_two) in
  dec_trace D (ex_two_new, ex_two_new)
    [OpDecode 9 [x01; x02; x03] Unknown; OpDecode 9 [x04] Unknown; OpFinish]
    = [ObDecode (Ok 3); ObDecode (Ok 1); ObFinish (Ok ([x01; x02], [x03; x04]))] /\
  dec_trace D (ex_two_new, ex_two_new)
    [OpDecode 9 [x01; x02; x03] Unknown; OpFinish; OpDecode 9 [x04] Unknown; OpFinish]
    = [ObDecode (Ok 3); ObFinish (Err IncompleteDecoding); ObDecode (Ok 1); ObFinish (Err IncompleteDecoding)].
Proof. split; reflexivity. Qed.
Theorem C56_and_then_refuted :
  let D := and_then_decoder ex_two ex_two (fun _ => ex_two_new) in
  dec_trace D (and_then_new ex_two_new)
    [OpDecode 9 [x01; x02; x03] Unknown; OpDecode 9 [x04] Unknown; OpIdle]
    = [ObDecode (Ok 3); ObDecode (Ok 1); ObIdle true] /\
  dec_trace D (and_then_new ex_two_new)
    [OpDecode 9 [x01; x02; x03] Unknown; OpFinish; OpDecode 9 [x04] Unknown; OpIdle]
    = [ObDecode (Ok 3); ObFinish (Err IncompleteDecoding); ObDecode (Ok 1); ObIdle false].
Proof. split; reflexivity. Qed.
Theorem C56_max_refuted :
  let D := max_decoder (copy_decoder vec_box) in
  let s := max_new (copy_dec_new [x00; x00; x00; x00]) 2 in
  dec_trace D s [OpDecode 9 [x01; x02] Unknown; OpDecode 9 [x03; x04] Unknown]
    = [ObDecode (Ok 2); ObDecode (Err InvalidInput)] /\
  dec_trace D s [OpDecode 9 [x01; x02] Unknown; OpFinish; OpDecode 9 [x03; x04] Unknown; OpFinish]
    = [ObDecode (Ok 2); ObFinish (Err IncompleteDecoding); ObDecode (Ok 2);
       ObFinish (Ok [x01; x02; x03; x04])].
Proof. split; reflexivity. Qed.
Theorem C56_maybe_refuted :
  let D := maybe_decoder ex_two in
  dec_trace D (maybe_new ex_two_new) [OpDecode 9 [x01] Unknown; OpDecode 9 [] (Finite 0)]
    = [ObDecode (Ok 1); ObDecode (Err UnexpectedEos)] /\
  dec_trace D (maybe_new ex_two_new) [OpDecode 9 [x01] Unknown; OpFinish; OpDecode 9 [] (Finite 0)]
    = [ObDecode (Ok 1); ObFinish (Err IncompleteDecoding); ObDecode (Ok 0)].
Proof. split; reflexivity. Qed.
Print Assumptions C56_tuple_refuted.
Print Assumptions C56_and_then_refuted.
Print Assumptions C56_max_refuted.
Print Assumptions C56_maybe_refuted.
