(** * C71, C72, C73: decoders take and encoders fill the whole buffer. *)
From Coq Require Import Lia.
From Verif Require Import EagerFull EagerProofs FillProofs Props_Safe.
Set Implicit Arguments.

(** ** C71: a decoder takes all the bytes it is given, unless the item is complete

    In any state, reachable or not, for any bytes and any end-of-stream argument; with [b], a call that announces
    the end of the stream either fails or completes the item. *)
Theorem C71_takes_all : forall S I (D : Decoder S I) b, eager D b ->
  forall fuel s buf e s' n, dec_decode D fuel s buf e = (s', Ok n) ->
    n <= length buf /\ (dec_idle D s' = false -> n = length buf) /\
    (b = true -> is_reached e = true -> dec_idle D s' = true).
Proof.
  intros S I D b H fuel s buf e s' n X. destruct (eager_greedy H) as [A B]. destruct (A _ _ _ _ _ _ X). repeat split; auto.
  intros T R. exact (B T _ _ _ _ _ _ X R).
Qed.
Print Assumptions C71_takes_all.

(** A byte count, then that many bytes; repeated to the end of the stream. *)
Definition ea_dec := collect_decoder (and_then_decoder U8Decoder (length_decoder rem_decoder) (length_new rem_dec_new)).
Definition ea_dec0 : Collect (AndThen NumDec (Length RemDec)) (list byte) := collect_new (and_then_new (num_dec_new 1)).
Example C71_example : eager ea_dec false /\
  exists s, dec_decode ea_dec 9 ea_dec0 [x02; x61; x62; x03; x63] (eos_new false) = (s, Ok 5) /\ dec_idle ea_dec s = false.
Proof. split; [exact (ea_collect (ea_and_then _ (ea_num _) (ea_length ea_rest)))|]. eexists. split; reflexivity. Qed.
Definition ea_rec := tuple2_decoder U16beDecoder (utf8_decoder rem_decoder).
Example C71_example_eos : eager ea_rec true /\
  exists s, dec_decode ea_rec 9 (num_dec_new 2, rem_dec_new) [x02; x61; x62] (eos_new true) = (s, Ok 3) /\ dec_idle ea_rec s = true.
Proof. split; [exact (ea_pair (ea_num _) (ea_utf8 ea_rest))|]. eexists. split; reflexivity. Qed.

(** Not for [slice], which suspends, ... *)
Theorem C71_slice_refuted : exists s,
  dec_decode (slice_decoder U8Decoder) 9 (slice_new (num_dec_new 1)) [x61] (eos_new false) = (s, Ok 0) /\
  dec_idle (slice_decoder U8Decoder) s = false.
Proof. eexists. split; reflexivity. Qed.
Print Assumptions C71_slice_refuted.
(** ... nor for a [length] whose item is longer than its window: *)
Theorem C71_length_refuted : exists s,
  dec_decode (length_decoder (length_decoder rem_decoder)) 9 (length_new (length_new rem_dec_new 5) 3)
    [x61; x62; x63; x64; x65; x66] (eos_new false) = (s, Ok 3) /\
  dec_idle (length_decoder (length_decoder rem_decoder)) s = false.
Proof. eexists. split; reflexivity. Qed.
Print Assumptions C71_length_refuted.
(** ... and [maybe_eos] lets an empty stream end without an item: *)
Theorem C71_maybe_eos_refuted : exists s,
  dec_decode (maybe_decoder U8Decoder) 9 (maybe_new (num_dec_new 1)) [] (eos_new true) = (s, Ok 0) /\
  dec_idle (maybe_decoder U8Decoder) s = false.
Proof. eexists. split; reflexivity. Qed.
Print Assumptions C71_maybe_eos_refuted.

(** ** C72: [requiring_bytes] is a lower bound, whatever the bytes are

    For every state reached by successful calls: a call takes all it is offered, or it completes the item and has
    taken at least as many bytes as [requiring_bytes] said before it; a complete item requires none. *)
Theorem C72_lower_bound : forall S I (D : Decoder S I) m l h Init, frugal D m l h Init ->
  forall s0 s, Init s0 -> served D s0 s ->
    (dec_idle D s = true -> dec_req D s = Ok (Finite 0)) /\
    forall fuel buf e s' n, m = true \/ is_reached e = false \/ buf = [] ->
      dec_decode D fuel s buf e = (s', Ok n) ->
      n <= length buf /\ (n = length buf \/ (dec_idle D s' = true /\ within (dec_req D s) n)).
Proof.
  intros S I D m l h Init H s0 s A R. destruct (frugal_provides H) as (L & P & Q).
  pose proof (served_L P (proj1 (Q _ A)) R) as Ls. split; [now apply (pv_idle P)|].
  intros fuel buf e s' n G X. exact (pv_take P _ _ Ls G X).
Qed.
Print Assumptions C72_lower_bound.
(** Before the end of the stream, a call that completes the item has taken at least as many bytes as
    [requiring_bytes] said, also if it has taken all it was offered; and no call completes an item for which
    [requiring_bytes] says "infinitely many". *)
Theorem C72_completed : forall S I (D : Decoder S I) m l h Init, frugal D m l h Init ->
  forall s0 s, Init s0 -> served D s0 s ->
  forall fuel buf e s' n, is_reached e = false -> dec_decode D fuel s buf e = (s', Ok n) ->
    dec_idle D s' = true -> within (dec_req D s) n.
Proof.
  intros S I D m l h Init H s0 s A R fuel buf e s' n NR X id. destruct (frugal_fulls H) as (L & P & F & Q).
  exact (F _ _ _ _ _ _ (served_L P (proj1 (Q _ A)) R) NR X id).
Qed.
Print Assumptions C72_completed.
(** At the end of the stream it may have taken fewer: [collect] asks for what the next item needs, and is complete
    if there is none. *)
Theorem C72_end_of_stream_refuted : exists s,
  dec_req (collect_decoder U32beDecoder) (collect_new (num_dec_new 4)) = Ok (Finite 4) /\
  dec_decode (collect_decoder U32beDecoder) 9 (collect_new (num_dec_new 4)) [] (eos_new true) = (s, Ok 0) /\
  dec_idle (collect_decoder U32beDecoder) s = true.
Proof. eexists. repeat split. Qed.
Print Assumptions C72_end_of_stream_refuted.
(** So [decode_exact] never finds bytes left over: if it fails with [InconsistentState], the decoder did. *)
Theorem C72_exact_takes_all : forall S I (D : Decoder S I) m l h Init, frugal D m l h Init ->
  forall s0 s, Init s0 -> served D s0 s ->
  forall fuel ifuel r s' r', decode_exact D fuel ifuel s r = (s', r', Err InconsistentState) ->
  exists s1, served D s s1 /\
    (dec_req D s1 = Err InconsistentState \/
     (exists buf e s2, dec_decode D ifuel s1 buf e = (s2, Err InconsistentState)) \/
     (exists s2, dec_finish D s1 = (s2, Err InconsistentState))).
Proof.
  intros S I D m l h Init H s0 s A R fuel ifuel r s' r' X. destruct (frugal_provides H) as (L & P & Q).
  exact (exact_blame ifuel P _ _ _ (served_L P (proj1 (Q _ A)) R) X).
Qed.
Print Assumptions C72_exact_takes_all.

(** A header and records; the record decoder on its own reads records one by one. *)
Definition fg_dec := tuple2_decoder U16beDecoder (and_then_decoder U8Decoder (length_decoder rem_decoder) (length_new rem_dec_new)).
Definition fg_dec0 : NumDec * AndThen NumDec (Length RemDec) := (num_dec_new 2, and_then_new (num_dec_new 1)).
Example C72_example : (exists Init, frugal fg_dec true false false Init /\ Init fg_dec0) /\
  dec_req fg_dec fg_dec0 = Ok (Finite 3) /\
  (exists s, dec_decode fg_dec 9 fg_dec0 [x01; x02; x02; x61] (eos_new false) = (s, Ok 4) /\ dec_req fg_dec s = Ok (Finite 1)) /\
  snd (decode_exact fg_dec 20 20 fg_dec0 (mkReader [x01; x02; x02; x61; x62; x63] [])) = Ok (258%N, [x61; x62]).
Proof.
  split.
  - eexists. split.
    + apply (fg_pair (fg_num _) (fg_and_then _ (fg_num _) (fg_length fg_rest) (fun i => ex_intro _ rem_dec_new (ex_intro _ i (conj eq_refl eq_refl))))).
    + cbn. split; [auto|]. eexists. split; [auto|]. reflexivity.
  - split; [reflexivity|]. split; [eexists; split; reflexivity|]. vm_compute. reflexivity.
Qed.
(** Not with bytes in a [length] window that the item does not need, ... *)
Theorem C72_length_refuted :
  snd (decode_exact (length_decoder U8Decoder) 9 9 (length_new (num_dec_new 1) 2) (mkReader [x61; x62] []))
    = Err InconsistentState.
Proof. vm_compute. reflexivity. Qed.
Print Assumptions C72_length_refuted.
(** ... nor with a suspended [slice], where the byte is lost as well: *)
Theorem C72_slice_refuted : exists s,
  decode_exact (slice_decoder U8Decoder) 9 9 (slice_new (num_dec_new 1)) (mkReader [x61; x62] [])
    = (s, mkReader [x62] [], Err InconsistentState) /\ s = slice_new (num_dec_new 1).
Proof. eexists. split; [vm_compute; reflexivity|reflexivity]. Qed.
Print Assumptions C72_slice_refuted.
(** ... and without [m] not in a call that brings the last bytes of the stream: a [MonolithicDecode] object need
    not read them. *)
Theorem C72_monolithic_refuted :
  let D := mono_decoder (fun w => match w with b :: _ => (inl b, 1) | [] => (inr UnexpectedEos, 0) end) in
  exists s s', dec_decode D 9 mono_dec_new [x61] (eos_new false) = (s, Ok 1) /\ dec_req D s = Ok Unknown /\
    dec_decode D 9 s [x62] (eos_new true) = (s', Ok 0) /\ dec_idle D s' = true /\ ~ within (dec_req D s) 0.
Proof.
  cbv zeta. eexists. eexists. repeat (split; [reflexivity|]). cbn. lia.
Qed.
Print Assumptions C72_monolithic_refuted.

(** ** C73: an encoder uses the whole buffer, unless the item is complete

    For every state reached by any calls, also failed ones. *)
Theorem C73_fills : forall S I (E : Encoder S I) p l Init, filling E p l Init ->
  forall s0 s, Init s0 -> worked E s0 s ->
  forall fuel buf e s' buf' n, enc_encode E fuel s buf e = (s', buf', Ok n) ->
    n <= length buf /\ length buf' = length buf /\
    (enc_idle E s' = false -> n = length buf) /\
    (l = true -> is_reached e = true -> enc_idle E s' = true) /\
    (p = true -> enc_idle E s = false -> (buf <> [] -> n <> 0) /\ (enc_idle E s' = true -> n <> 0)).
Proof.
  intros S I E p l Init H s0 s A R fuel buf e s' buf' n X. destruct (filling_fills H) as (L & P & Q).
  pose proof (worked_L P (Q _ A) R) as Ls. destruct (fi_tidy P _ _ _ _ X) as [T1 T2]. split; [auto|]. split; [auto|].
  split; [|split].
  - intros id. exact (fi_all P _ _ _ _ Ls X id).
  - intros T Re. exact (fi_loud P _ _ _ _ T Ls Re X).
  - intros T id. exact (fi_pos P _ _ _ _ T Ls id X).
Qed.
Print Assumptions C73_fills.
(** So [encode_all] into a growing buffer does not give up on it: an error is an error of the encoder, ... *)
Theorem C73_encode_all : forall S I (E : Encoder S I) p l Init, filling E p l Init ->
  forall s0 s, Init s0 -> worked E s0 s ->
  forall fuel d s' w' k, encode_all E fuel s (mkWriter d []) = (s', w', Err k) ->
  exists s1 b s2 b', worked E s s1 /\ enc_encode E fuel s1 b (eos_new false) = (s2, b', Err k).
Proof.
  intros S I E p l Init H s0 s A R fuel d s' w' k X. destruct (filling_fills H) as (L & P & Q).
  eapply (encode_all_blame (E := E)) in X; eauto; [eapply worked_L; eauto|discriminate].
Qed.
Print Assumptions C73_encode_all.
(** ... and [encode_into_bytes] does not find the encoder unfinished. *)
Theorem C73_into_bytes : forall S I (E : Encoder S I) p Init, filling E p true Init ->
  forall s0 s, Init s0 -> worked E s0 s ->
  forall fuel i s', encode_into_bytes E fuel s i = (s', Err InconsistentState) ->
  exists s1, worked E s s1 /\
    ((exists s2, enc_start E fuel s1 i = (s2, Err InconsistentState)) \/
     enc_req E s1 = Err InconsistentState \/
     (exists b e s2 b', enc_encode E fuel s1 b e = (s2, b', Err InconsistentState))).
Proof.
  intros S I E p Init H s0 s A R fuel i s' X. destruct (filling_fills H) as (L & P & Q).
  eapply (into_bytes_blame (E := E)); eauto. eapply worked_L; eauto.
Qed.
Print Assumptions C73_into_bytes.

(** A header and any number of 16-bit values. *)
Definition fl_enc := tuple2_encoder U8Encoder (repeat_encoder U16beEncoder).
Definition fl_enc0 : NumEnc * Repeat NumEnc N := (num_enc_new, repeat_new num_enc_new).
Example C73_example : (exists Init, filling fl_enc false true Init /\ Init fl_enc0) /\
  exists s1 s2 b, enc_start fl_enc 9 fl_enc0 (7, [1; 2; 3])%N = (s1, Ok tt) /\
    enc_encode fl_enc 9 s1 (repeat x00 4) (eos_new false) = (s2, b, Ok 4) /\ enc_idle fl_enc s2 = false /\
    b = [x07; x00; x01; x00].
Proof.
  split.
  - eexists. split.
    + apply (fl_pair (fl_num (total_item (write_be 1)) (fun t b (E : inl (write_be 1 t) = inl b) => ltac:(now injection E as <-)))
        (fl_repeat (fl_num (total_item (write_be 2)) (fun t b (E : inl (write_be 2 t) = inl b) => ltac:(now injection E as <-))))).
    + cbn. auto.
  - repeat eexists; reflexivity.
Qed.
(** Not for [last], which does not go on in the call in which the previous item ends, ... *)
Theorem C73_last_refuted : exists s1 s2,
  enc_start (bytes_encoder vec_box) 9 bytes_enc_new [x61; x62] = (s1, Ok tt) /\
  enc_encode (last_encoder (bytes_encoder vec_box)) 9 (last_new s1 [x63; x64]) (repeat x00 4) (eos_new false)
    = (s2, [x61; x62; x00; x00], Ok 2) /\
  enc_idle (last_encoder (bytes_encoder vec_box)) s2 = false.
Proof. eexists. eexists. repeat split; reflexivity. Qed.
Print Assumptions C73_last_refuted.
(** ... nor for [repeat] over items without bytes: it stops at the first one, and [encode_all] gives up. *)
Theorem C73_repeat_refuted : exists s1 s2,
  enc_start (repeat_encoder (bytes_encoder vec_box)) 9 (repeat_new bytes_enc_new) [[]; [x61]] = (s1, Ok tt) /\
  enc_encode (repeat_encoder (bytes_encoder vec_box)) 9 s1 (repeat x00 4) (eos_new false) = (s2, repeat x00 4, Ok 0) /\
  enc_idle (repeat_encoder (bytes_encoder vec_box)) s2 = false /\
  snd (encode_all (repeat_encoder (bytes_encoder vec_box)) 9 s1 (mkWriter [] [])) = Err Other.
Proof. eexists. eexists. repeat split; vm_compute; reflexivity. Qed.
Print Assumptions C73_repeat_refuted.
(** ... and [encode_into_bytes] over a suspended [slice] finds it unfinished: *)
Theorem C73_slice_refuted :
  snd (encode_into_bytes (slice_encoder U8Encoder) 9 (slice_new num_enc_new) 7%N) = Err InconsistentState.
Proof. vm_compute. reflexivity. Qed.
Print Assumptions C73_slice_refuted.
(** A monolithic encoder reports success at the end of the stream with bytes left over. *)
Theorem C73_monolithic_refuted :
  let E := mono_encoder (fun i : list byte => ([i], None)) in
  exists s1 s2, enc_start E 9 mono_enc_new [x61; x62] = (s1, Ok tt) /\
    enc_encode E 9 s1 [x00] (eos_new true) = (s2, [x61], Ok 1) /\ enc_idle E s2 = false.
Proof. cbv zeta. eexists. eexists. repeat split; reflexivity. Qed.
Print Assumptions C73_monolithic_refuted.
