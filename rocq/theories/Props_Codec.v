(** * Theorems about every codec term: C01-C04, C12, C35-C37, C39-C41, C53, C54.

    [codec] (file [Universe]) is the language of the codecs a user can build; [decoder c] and
    [encoder c] are built from the model of the code, [reads c] and [wire c] are independent
    descriptions of the bytes.  [fuel] is a bound on loop rounds that exists only in the model; every
    theorem holds for all sufficiently large values, and says which.

    Beside each theorem an [Example] meets its hypotheses with a non-trivial codec. *)
From Coq Require Import Lia ZifyBool ZifyNat ZifyN.
From Verif Require Import Session Drive SoundProofs CodecProofs Examples.
Set Implicit Arguments.

(** ** C01: chunking of self-delimiting decoders *)
Theorem C01_chunk_invariance : forall A (c : codec A) w a extra sched fuel,
  wf c -> delim c = SD -> reads c w a ->
  (len (w ++ extra) <= u64_max)%N -> length (w ++ extra) < fuel ->
  exists s,
    (* every call succeeds; what is left is the stream without the offered part of the item *)
    feed (decoder c) fuel (dec_fresh c) (w ++ extra) sched
      = (s, skipn (min (length w) (offered sched)) (w ++ extra), Ok tt) /\
    (* idle exactly when the whole item has been offered *)
    (dec_idle (decoder c) s = true <->
       length w <= offered sched /\ (sched <> [] \/ dec_idle (decoder c) (dec_fresh c) = true)) /\
    (* and then the item comes out *)
    (dec_idle (decoder c) s = true -> snd (dec_finish (decoder c) s) = Ok a).
Proof.
  intros A c w a extra sched fuel WF M R L F.
  destruct (proj1 term_dec_ok A c WF) as (P & Q & HD & H0 & _ & _). rewrite M in HD.
  destruct (feed_sd (fuel := fuel) sched extra (HD _ _ _ H0 R) L F) as (s & X1 & X2 & X3).
  exists s. split; auto. split; auto. intros id.
  destruct (parses_idle X2 id) as (_ & _ & s' & -> & _). reflexivity.
Qed.
Print Assumptions C01_chunk_invariance.
Example C01_example :
  wf ex_msg /\ delim ex_msg = SD /\ reads ex_msg ex_msg_bytes ex_msg_item.
Proof. split; [apply ex_msg_wf|]. split; [reflexivity|apply ex_msg_reads]. Qed.

(** Decoders with a byte limit ([delim c = Exact]), if nothing follows the item. *)
Theorem C01_chunk_invariance_bounded : forall A (c : codec A) w a sched fuel,
  wf c -> delim c <> ToEos -> reads c w a -> ends sched -> length w < fuel ->
  exists s,
    feed (decoder c) fuel (dec_fresh c) w sched = (s, skipn (offered sched) w, Ok tt) /\
    (dec_idle (decoder c) s = true -> length w <= offered sched) /\
    (sched <> [] -> length w <= offered sched -> dec_idle (decoder c) s = true) /\
    (dec_idle (decoder c) s = true -> snd (dec_finish (decoder c) s) = Ok a).
Proof.
  intros A c w a sched fuel WF M R EN F.
  destruct (proj1 term_dec_ok A c WF) as (P & Q & HD & H0 & _ & _).
  destruct (feed_exact (fuel := fuel) (HD _ _ _ H0 R) EN F) as (s & X1 & X2 & X3 & X4 & _).
  exists s. split; auto. split; [intros id; apply X3; auto|]. split; [auto|]. intros id.
  destruct (parses_idle X2 id) as (_ & _ & s' & -> & _). reflexivity.
Qed.
Print Assumptions C01_chunk_invariance_bounded.
Example C01_bounded_example :
  let c := CMax 20 ex_msg in
  wf c /\ delim c <> ToEos /\ reads c ex_msg_bytes ex_msg_item.
Proof.
  split; [split; [apply ex_msg_wf|discriminate]|]. split; [discriminate|].
  split; [apply ex_msg_reads|discriminate].
Qed.

(** ** C02: chunking of decoders that run to the end of the stream *)
Theorem C02_chunk_invariance_eos : forall A (c : codec A) w a sched fuel,
  wf c -> delim c = ToEos -> reads c w a -> ends sched -> length w < fuel ->
  exists s,
    (* every call succeeds and consumes all it is offered *)
    feed (decoder c) fuel (dec_fresh c) w sched = (s, skipn (offered sched) w, Ok tt) /\
    (* idle exactly when some call has announced the end of the stream *)
    dec_idle (decoder c) s = announced (length w) sched /\
    (dec_idle (decoder c) s = true -> snd (dec_finish (decoder c) s) = Ok a).
Proof.
  intros A c w a sched fuel WF M R EN F.
  destruct (proj1 term_dec_ok A c WF) as (P & Q & HD & H0 & _ & HB). rewrite M in HD, HB.
  destruct (feed_eos (fuel := fuel) (HD _ _ _ H0 R) (HB (or_intror eq_refl) _ H0) EN F)
    as (s & X1 & X2 & X3).
  exists s. split; auto. split; auto. intros id.
  destruct (parses_idle X2 id) as (_ & _ & s' & -> & _). reflexivity.
Qed.
Print Assumptions C02_chunk_invariance_eos.
Example C02_example :
  wf ex_file /\ delim ex_file = ToEos /\ reads ex_file ex_file_bytes ex_file_items /\
  announced (length ex_file_bytes) [(3, HUnknown); (0, HExact); (10, HUnknown); (0, HExact)] = true.
Proof.
  split; [apply ex_file_wf|]. split; [reflexivity|]. split; [apply ex_file_reads|reflexivity].
Qed.

(** ** C03: output buffers of encoders *)
Theorem C03_buffer_independence : forall A (c : codec A) w a,
  wf c -> wire c w a ->
  exists f0, forall fuel bufs, f0 + room bufs < fuel ->
  exists s1 s,
    enc_start (encoder c) fuel (enc_fresh c) a = (s1, Ok tt) /\
    (* after any buffers, the output is a prefix of the encoding, as long as the room allows *)
    drain (encoder c) fuel s1 [] bufs = (s, firstn (room bufs) w, Ok tt) /\
    (* idle exactly when everything has been written *)
    (enc_idle (encoder c) s = true <->
       length w <= room bufs /\ (bufs <> [] \/ enc_idle (encoder c) s1 = true)) /\
    (* the next call writes as much as fits, and leaves the rest of the buffer alone *)
    (enc_idle (encoder c) s = false ->
     forall b, f0 + length b < fuel ->
     let todo := skipn (room bufs) w in
     let n := min (length b) (length todo) in
     exists s2, enc_encode (encoder c) fuel s b (eos_new false)
                  = (s2, firstn n todo ++ skipn n b, Ok n) /\
       (enc_idle (encoder c) s2 = true <-> n = length todo)).
Proof.
  intros A c w a WF W.
  destruct (proj1 term_enc_ok A c WF) as (P & Q & HE & H0 & _).
  destruct (HE _ _ W) as (f0 & AC). exists f0. intros fuel bufs F.
  destruct (AC _ H0 fuel ltac:(lia)) as (s1 & X1 & EM). exists s1.
  destruct (drain_ok (fuel := fuel) bufs [] EM F) as (s & X2 & EM2 & ID).
  exists s. split; auto. split; auto. split; auto. intros id b FB todo n.
  fold todo in EM2.
  destruct (le_lt_dec (length todo) (length b)) as [K|K].
  - destruct (emits_last (eos_new false) EM2 id K (fuel := fuel) FB) as (s2 & X3 & id2 & _).
    exists s2. subst n. rewrite Nat.min_r by lia. rewrite firstn_all. split; auto. tauto.
  - rewrite (split_at (length b) todo) in EM2.
    assert (NE : skipn (length b) todo <> []).
    { intros X. apply (f_equal (@length byte)) in X. rewrite skipn_length in X. cbn in X. lia. }
    destruct (emits_more EM2 id (e := eos_new false) (buf := b) (fuel := fuel)
                ltac:(rewrite firstn_length; lia) NE eq_refl FB) as (s2 & X3 & id2 & _).
    exists s2. subst n. rewrite Nat.min_l by lia. rewrite skipn_all, app_nil_r. split; auto.
    rewrite id2. split; [discriminate|lia].
Qed.
Print Assumptions C03_buffer_independence.
Example C03_example : wf ex_msg /\ wire ex_msg ex_msg_bytes ex_msg_item.
Proof. split; [apply ex_msg_wf|apply ex_msg_wire]. Qed.

(** ** C04: round trip *)
Theorem C04_round_trip : forall A (c : codec A) w a,
  wf c -> wire c w a ->
  exists f0, forall fuel bufs sched extra,
    f0 + room bufs + length (w ++ extra) < fuel ->
    (* enough output buffers; a schedule that offers all of it *)
    bufs <> [] -> length w <= room bufs ->
    completes (delim c) w sched -> (delim c <> SD -> extra = []) ->
    (len (w ++ extra) <= u64_max)%N ->
  exists s1 s2 out s3,
    enc_start (encoder c) fuel (enc_fresh c) a = (s1, Ok tt) /\
    drain (encoder c) fuel s1 [] bufs = (s2, out, Ok tt) /\ enc_idle (encoder c) s2 = true /\
    feed (decoder c) fuel (dec_fresh c) (out ++ extra) sched = (s3, extra, Ok tt) /\
    dec_idle (decoder c) s3 = true /\ snd (dec_finish (decoder c) s3) = Ok a.
Proof.
  intros A c w a WF W.
  destruct (proj1 term_enc_ok A c WF) as (P & Q & HE & H0 & _).
  destruct (HE _ _ W) as (f0 & AC). exists f0. intros fuel bufs sched extra F BN BR CO EX L.
  destruct (AC _ H0 fuel ltac:(lia)) as (s1 & X1 & EM).
  destruct (drain_ok (fuel := fuel) bufs [] EM ltac:(lia)) as (s2 & X2 & EM2 & ID).
  rewrite firstn_all2 in X2 by lia. cbn [app] in X2. exists s1, s2, w.
  pose proof (proj1 wire_reads A c w a W) as R.
  assert (X : exists s3, feed (decoder c) fuel (dec_fresh c) (w ++ extra) sched = (s3, extra, Ok tt) /\
    dec_idle (decoder c) s3 = true /\ snd (dec_finish (decoder c) s3) = Ok a).
  { rewrite app_length in F. destruct (delim c) eqn:M.
    - destruct CO as (SN & OF).
      destruct (@C01_chunk_invariance A c w a extra sched fuel WF M R L) as (s3 & Y1 & Y2 & Y3).
      { rewrite app_length; lia. }
      exists s3. rewrite Y1, Nat.min_l, skipn_app_exact by lia. split; auto.
      assert (id : dec_idle (decoder c) s3 = true) by (apply Y2; auto). auto.
    - destruct CO as (SN & OF & EN). rewrite EX in * by discriminate. rewrite app_nil_r.
      destruct (@C01_chunk_invariance_bounded A c w a sched fuel WF)
        as (s3 & Y1 & Y2 & Y3 & Y4); auto; [congruence|cbn in F; lia|].
      exists s3. rewrite Y1, skipn_all2 by lia. split; auto.
    - destruct CO as (AN & EN). rewrite EX in * by discriminate. rewrite app_nil_r.
      destruct (@C02_chunk_invariance_eos A c w a sched fuel WF M R EN) as (s3 & Y1 & Y2 & Y3);
        [cbn in F; lia|].
      exists s3. rewrite Y1, Y2, AN in *. split; auto. f_equal. f_equal. apply skipn_all2.
      clear - AN. revert w AN. induction sched as [|[k h] sched IH]; cbn; intros; [discriminate|].
      apply orb_prop in AN. destruct AN as [AN|AN]; [destruct h; try discriminate; lia|].
      fold (offered sched). rewrite <- (skipn_length k w) in AN. specialize (IH _ AN). rewrite skipn_length in IH. lia. }
  destruct X as (s3 & Y1 & Y2 & Y3). exists s3. rewrite (proj2 ID) by auto. auto 8.
Qed.
Print Assumptions C04_round_trip.
Example C04_example :
  (wf ex_msg /\ wire ex_msg ex_msg_bytes ex_msg_item /\
   completes (delim ex_msg) ex_msg_bytes [(3, HUnknown); (0, HNever); (20, HExact)]) /\
  (wf ex_file /\ wire ex_file ex_file_bytes ex_file_items /\
   completes (delim ex_file) ex_file_bytes [(3, HUnknown); (10, HUnknown); (0, HExact)]).
Proof.
  split; (split; [apply ex_msg_wf || apply ex_file_wf|split; [apply ex_msg_wire || apply ex_file_wire|]]).
  - cbn; split; [discriminate|lia].
  - cbn; split; [reflexivity|]. repeat constructor; discriminate.
Qed.

(** ** C12: items are justified by the consumed bytes *)
Theorem C12_sound : forall A (c : codec A) ops s acc items,
  usable c -> renews c = true ->
  history (decoder c) (dec_fresh c) ops s acc items ->
  Forall (fun wi => justifies c (fst wi) (snd wi)) items.
Proof.
  intros A c ops s acc items U RN H. destruct (proj1 term_sound A c U) as [S _].
  rewrite RN in S. exact (proj2 (history_sound S H)).
Qed.
Print Assumptions C12_sound.
(** For decoders that do not start afresh after an item: the first one. *)
Theorem C12_sound_first : forall A (c : codec A) ops s acc w a items,
  usable c -> history (decoder c) (dec_fresh c) ops s acc ((w, a) :: items) ->
  justifies c w a.
Proof.
  intros A c ops s acc w a items U H. destruct (proj1 term_sound A c U) as [S _].
  exact (proj2 (history_sound_once S H) (w, a) items eq_refl).
Qed.
Print Assumptions C12_sound_first.
(** Where nothing is dropped, "justified" means "an encoding in the decoder's format". *)
Theorem C12_sound_reads : forall A (c : codec A) ops s acc w a items,
  usable c -> faithful c -> fits w ->
  history (decoder c) (dec_fresh c) ops s acc ((w, a) :: items) ->
  reads c w a.
Proof.
  intros. apply (proj1 justifies_reads); auto. eapply C12_sound_first; eauto.
Qed.
Print Assumptions C12_sound_reads.
Example C12_example :
  usable ex_msg /\ renews ex_msg = true /\ faithful ex_msg /\
  exists s, history (decoder ex_msg) (dec_fresh ex_msg) ex_msg_ops s []
     [(ex_msg_bytes, ex_msg_item); (ex_msg_bytes, ex_msg_item)].
Proof.
  split; [apply ex_msg_usable|]. split; [reflexivity|]. split; [apply ex_msg_faithful|].
  apply ex_msg_history.
Qed.

(** ** C35: requiring_bytes of decoders *)
Theorem C35_decoder_requiring_bytes : forall A (c : codec A) w a extra sched fuel,
  wf c -> delim c = SD -> reads c w a ->
  (len (w ++ extra) <= u64_max)%N -> length (w ++ extra) < fuel ->
  exists s, feed (decoder c) fuel (dec_fresh c) (w ++ extra) sched
              = (s, skipn (min (length w) (offered sched)) (w ++ extra), Ok tt) /\
    let left := skipn (offered sched) w in
    if dec_idle (decoder c) s then dec_req (decoder c) s = Ok (Finite 0)
    else match dec_req (decoder c) s with
         | Ok (Finite n) => (n <= len left)%N /\ (n = 0%N -> left = [])
         | Ok Unknown => left <> []
         | _ => False
         end.
Proof.
  intros A c w a extra sched fuel WF M R L F.
  destruct (proj1 term_dec_ok A c WF) as (P & Q & HD & H0 & _ & _). rewrite M in HD.
  destruct (feed_sd (fuel := fuel) sched extra (HD _ _ _ H0 R) L F) as (s & X1 & X2 & X3).
  exists s. split; auto. cbn zeta. destruct (dec_idle (decoder c) s) eqn:id.
  - apply (parses_idle X2 id).
  - exact (parses_req X2 id).
Qed.
Print Assumptions C35_decoder_requiring_bytes.

(** ** C36: requiring_bytes of encoders *)
Theorem C36_encoder_requiring_bytes : forall A (c : codec A) w a,
  wf c -> wire c w a ->
  exists f0, forall fuel bufs, f0 + room bufs < fuel ->
  exists s1 s,
    enc_start (encoder c) fuel (enc_fresh c) a = (s1, Ok tt) /\
    drain (encoder c) fuel s1 [] bufs = (s, firstn (room bufs) w, Ok tt) /\
    let left := skipn (room bufs) w in
    (enc_req (encoder c) s = Ok (Finite (len left)) \/
     enc_req (encoder c) s = Ok Unknown /\ enc_idle (encoder c) s = false) /\
    (enc_idle (encoder c) s = true -> enc_req (encoder c) s = Ok (Finite 0)).
Proof.
  intros A c w a WF W.
  destruct (proj1 term_enc_ok A c WF) as (P & Q & HE & H0 & _).
  destruct (HE _ _ W) as (f0 & AC). exists f0. intros fuel bufs F.
  destruct (AC _ H0 fuel ltac:(lia)) as (s1 & X1 & EM). exists s1.
  destruct (drain_ok (fuel := fuel) bufs [] EM F) as (s & X2 & EM2 & ID).
  exists s. split; auto. split; auto. split; [exact (emits_req EM2)|]. intros id.
  destruct (emits_idle EM2 id) as (E & _). destruct (emits_req EM2) as [->|[_ ?]]; [|congruence].
  rewrite E. reflexivity.
Qed.
Print Assumptions C36_encoder_requiring_bytes.

(** ** C37: decode_exact *)
Theorem C37_decode_exact : forall A (c : codec A) w a extra r fuel,
  wf c -> busy c = true \/ delim c = ToEos -> reads c w a ->
  rd_data r = w ++ extra -> (delim c <> SD -> extra = []) -> short_reads r ->
  length w + 2 <= fuel ->
  exists s r', decode_exact (decoder c) fuel fuel (dec_fresh c) r = (s, r', Ok a) /\
               rd_data r' = extra.
Proof.
  intros A c w a extra r fuel WF B R RD EX SR F.
  destruct (proj1 term_dec_ok A c WF) as (P & Q & HD & H0 & _ & HB).
  destruct (decode_exact_ok (fuel := fuel) (ifuel := fuel) (extra := extra) r (HD _ _ _ H0 R) (HB B _ H0) EX RD)
    as (s & r' & X1 & _ & X2); try lia; eauto.
  eapply Forall_impl; [|exact SR]. intros p (n & ->). exact I.
Qed.
Print Assumptions C37_decode_exact.
Example C37_example : let r := mkReader (ex_msg_bytes ++ [x55; x66]) [RdSome 2; RdSome 0] in
  wf ex_msg /\ busy ex_msg = true /\ reads ex_msg ex_msg_bytes ex_msg_item /\
  rd_data r = ex_msg_bytes ++ [x55; x66] /\ short_reads r.
Proof.
  split; [apply ex_msg_wf|]. split; [reflexivity|]. split; [apply ex_msg_reads|]. split; [reflexivity|].
  repeat constructor; eauto.
Qed.

(** ** C39: decode_from_bytes *)
Theorem C39_decode_from_bytes : forall A (c : codec A) buf a fuel,
  wf c -> usable c -> faithful c -> busy c = true -> fits buf -> length buf < fuel ->
  snd (decode_from_bytes (decoder c) fuel (dec_fresh c) buf) = Ok a <-> reads c buf a.
Proof.
  intros A c buf a fuel WF U FA B FI F. split.
  - intros H. destruct (proj1 term_sound A c U) as [SND ID]. specialize (ID B).
    apply (proj1 justifies_reads); auto. pose proof (sound_closed (decoder c) (justifies c) (renews c) (busy c)) as CL.
    unfold decode_from_bytes in H.
    destruct (dec_decode _ _ _ _ _) as [s' [n|k| |]] eqn:X; cbn in H; try discriminate.
    destruct (Nat.eqb_spec n (length buf)) as [->|]; [|discriminate].
    destruct (sd_decode CL SND ID X) as [_ S2]. rewrite firstn_all in S2. cbn in S2.
    destruct (dec_finish (decoder c) s') as [s2 r] eqn:Y. cbn in H. subst r.
    exact (proj1 (sd_finish CL S2 Y)).
  - intros R. destruct (proj1 term_dec_ok A c WF) as (P & Q & HD & H0 & _ & HB).
    destruct (decode_from_bytes_ok (fuel := fuel) (HD _ _ _ H0 R) (HB (or_introl B) _ H0) F) as (s' & -> & _).
    reflexivity.
Qed.
Print Assumptions C39_decode_from_bytes.
(** With a decoder that may drop bytes: success still needs the whole buffer. *)
Theorem C39_whole_buffer : forall A (c : codec A) buf a fuel,
  usable c -> busy c = true ->
  snd (decode_from_bytes (decoder c) fuel (dec_fresh c) buf) = Ok a -> justifies c buf a.
Proof.
  intros A c buf a fuel U B H. destruct (proj1 term_sound A c U) as [SND ID]. specialize (ID B).
  pose proof (sound_closed (decoder c) (justifies c) (renews c) (busy c)) as CL.
  unfold decode_from_bytes in H.
  destruct (dec_decode _ _ _ _ _) as [s' [n|k| |]] eqn:X; cbn in H; try discriminate.
  destruct (Nat.eqb_spec n (length buf)) as [->|]; [|discriminate].
  destruct (sd_decode CL SND ID X) as [_ S2]. rewrite firstn_all in S2. cbn in S2.
  destruct (dec_finish (decoder c) s') as [s2 r] eqn:Y. cbn in H. subst r.
  exact (proj1 (sd_finish CL S2 Y)).
Qed.
Print Assumptions C39_whole_buffer.
Theorem C39_complete : forall A (c : codec A) buf a fuel,
  wf c -> busy c = true \/ delim c = ToEos -> reads c buf a -> length buf < fuel ->
  snd (decode_from_bytes (decoder c) fuel (dec_fresh c) buf) = Ok a.
Proof.
  intros A c buf a fuel WF B R F. destruct (proj1 term_dec_ok A c WF) as (P & Q & HD & H0 & _ & HB).
  destruct (decode_from_bytes_ok (fuel := fuel) (HD _ _ _ H0 R) (HB B _ H0) F) as (s' & -> & _).
  reflexivity.
Qed.
Print Assumptions C39_complete.
Theorem C39_trailing : forall A (c : codec A) w a extra fuel,
  wf c -> busy c = true -> delim c = SD -> reads c w a -> extra <> [] ->
  (len (w ++ extra) <= u64_max)%N -> length (w ++ extra) < fuel ->
  snd (decode_from_bytes (decoder c) fuel (dec_fresh c) (w ++ extra)) = Err InvalidInput.
Proof.
  intros A c w a [|x extra] fuel WF B M R NE L F; [congruence|].
  destruct (proj1 term_dec_ok A c WF) as (P & Q & HD & H0 & _ & HB). rewrite M in *.
  destruct (decode_from_bytes_trailing (fuel := fuel) _ _ (HD _ _ _ H0 R) (HB (or_introl B) _ H0) F L) as (s' & ->).
  reflexivity.
Qed.
Print Assumptions C39_trailing.
Example C39_example :
  wf ex_msg /\ usable ex_msg /\ faithful ex_msg /\ busy ex_msg = true /\ fits ex_msg_bytes /\
  reads ex_msg ex_msg_bytes ex_msg_item.
Proof.
  split; [apply ex_msg_wf|]. split; [apply ex_msg_usable|]. split; [apply ex_msg_faithful|].
  split; [reflexivity|]. split; [discriminate|apply ex_msg_reads].
Qed.

(** ** C40: encode_all *)
Theorem C40_encode_all : forall A (c : codec A) w a,
  wf c -> wire c w a ->
  exists f0, forall fuel wr, f0 + length w < fuel -> short_writes wr ->
  exists s1 s wr',
    enc_start (encoder c) fuel (enc_fresh c) a = (s1, Ok tt) /\
    encode_all (encoder c) fuel s1 wr = (s, wr', Ok tt) /\
    wr_data wr' = wr_data wr ++ w /\ enc_idle (encoder c) s = true.
Proof.
  intros A c w a WF W.
  destruct (proj1 term_enc_ok A c WF) as (P & Q & HE & H0 & _).
  destruct (HE _ _ W) as (f0 & AC). exists (f0 + io_buf_size). intros fuel wr F SW.
  destruct (AC _ H0 fuel ltac:(lia)) as (s1 & X1 & EM). exists s1.
  destruct (encode_all_ok (fuel := fuel) wr EM) as (s & plan & X2 & _ & ID); [|lia|].
  { eapply Forall_impl; [|exact SW]. intros p [->|(n & ->)]; exact I. }
  exists s, (mkWriter (wr_data wr ++ w) plan). auto.
Qed.
Print Assumptions C40_encode_all.
(** Any writer: what reached it is a prefix of the encoding, and success means all of it. *)
Theorem C40_failing_writer : forall A (c : codec A) w a,
  wf c -> wire c w a ->
  exists f0, forall fuel wr, f0 + length w < fuel ->
  exists s1 s wr' r sent rest,
    enc_start (encoder c) fuel (enc_fresh c) a = (s1, Ok tt) /\
    encode_all (encoder c) fuel s1 wr = (s, wr', r) /\
    w = sent ++ rest /\ wr_data wr' = wr_data wr ++ sent /\
    (r = Ok tt /\ rest = [] /\ enc_idle (encoder c) s = true \/ exists k, r = Err k).
Proof.
  intros A c w a WF W.
  destruct (proj1 term_enc_ok A c WF) as (P & Q & HE & H0 & _).
  destruct (HE _ _ W) as (f0 & AC). exists (f0 + io_buf_size). intros fuel wr F.
  destruct (AC _ H0 fuel ltac:(lia)) as (s1 & X1 & EM).
  destruct (@encode_all_prefix _ _ (encoder c) f0 Q fuel fuel s1 w (repeat x00 io_buf_size) wr EM)
    as (s & p & q & plan & r & X2 & E & OK);
    rewrite ?repeat_length; try (unfold io_buf_size in *; lia).
  exists s1, s, (mkWriter (wr_data wr ++ p) plan), r, p, q. split; auto. split; auto. split; auto.
  split; auto. destruct OK as [(-> & -> & _ & ID)|[k ->]]; eauto.
Qed.
Print Assumptions C40_failing_writer.
Example C40_example : wf ex_msg /\ wire ex_msg ex_msg_bytes ex_msg_item /\
  short_writes (mkWriter [x01] [WrSome 2; WrErr IoInterrupted; WrSome 0]).
Proof. split; [apply ex_msg_wf|]. split; [apply ex_msg_wire|].
  unfold short_writes; cbn. constructor; [eauto|]. constructor; [auto|]. constructor; [eauto|constructor].
Qed.

(** ** C41: encode_into_bytes *)
Theorem C41_encode_into_bytes : forall A (c : codec A) w a,
  wf c -> enc_again c = true -> wire c w a ->
  exists f0, forall fuel, f0 + length w < fuel ->
  exists s, encode_into_bytes (encoder c) fuel (enc_fresh c) a = (s, Ok w) /\
            enc_idle (encoder c) s = true.
Proof.
  intros A c w a WF AG W.
  pose proof (proj1 term_enc_ok A c WF) as EO. unfold code_enc_ok in EO. rewrite AG in EO.
  destruct (enc_ok_again EO) as (P & HE & H0 & RS).
  destruct (HE _ _ W) as (f0 & AC). exists (f0 + io_buf_size). intros fuel F.
  destruct (encode_into_bytes_ok (fuel := fuel) RS (AC _ H0) ltac:(lia)) as (s & X & PS).
  exists s. split; auto. apply (RS s PS).
Qed.
Print Assumptions C41_encode_into_bytes.
(** Unbounded output is refused. *)
Theorem C41_unbounded : forall S I (E : Encoder S I) fuel s s1 i,
  enc_start E fuel s i = (s1, Ok tt) -> enc_req E s1 = Ok Infinite ->
  encode_into_bytes E fuel s i = (s1, Err InvalidInput).
Proof. intros S I E fuel s s1 i X Y. unfold encode_into_bytes. rewrite X, Y. reflexivity. Qed.
Print Assumptions C41_unbounded.
Theorem C41_padding : forall fuel b,
  snd (encode_into_bytes pad_encoder fuel None b) = Err InvalidInput.
Proof. reflexivity. Qed.
Print Assumptions C41_padding.
Example C41_example : wf ex_msg /\ enc_again ex_msg = true /\ wire ex_msg ex_msg_bytes ex_msg_item.
Proof. split; [apply ex_msg_wf|]. split; [reflexivity|apply ex_msg_wire]. Qed.

(** ** C53: decoders are reusable *)
Theorem C53_reuse : forall A (c : codec A) ws items extra sched fuel,
  wf c -> delim c = SD -> dec_again c = true -> busy c = true ->
  Forall2 (reads c) ws items ->
  (len (concat ws ++ extra) <= u64_max)%N -> length (concat ws ++ extra) < fuel ->
  exists k s consumed rest,
    (* whatever the schedule, all calls succeed and the first [k] items come out, in order *)
    decode_items (decoder c) fuel (length items) (dec_fresh c) (concat ws ++ extra) [] sched
      = (s, rest, firstn k items, Ok tt) /\
    k <= length items /\
    (* what was consumed is the bytes of these items and a part of the next *)
    concat ws ++ extra = consumed ++ rest /\
    length (concat (firstn k ws)) <= length consumed <= length (concat (firstn (k + 1) ws)) /\
    (* with enough calls, all of them *)
    (length (concat ws) + length items <= pushes sched -> k = length items /\ rest = extra).
Proof.
  intros A c ws items extra sched fuel WF M AG B HF L F.
  pose proof (proj1 term_dec_ok A c WF) as DO. unfold code_dec_ok in DO. rewrite AG, M, B in DO.
  destruct (dec_ok_again DO) as (P & HD & H0 & HB). specialize (HB (or_introl eq_refl)).
  destruct HF as [|w a ws items R HF].
  - exists 0, (dec_fresh c), [], extra. cbn. split; [destruct sched; auto|]. repeat split; auto.
  - cbn [concat] in *. rewrite <- app_assoc in *.
    destruct (@decode_items_ok _ _ (decoder c) (reads c) P fuel HD HB sched (dec_fresh c) w a ws items
                extra [] (HD _ _ _ H0 R) (HB _ H0) HF L F)
      as (k & s & co & rest & X1 & X2 & X3 & X4 & X5).
    exists k, s, co, rest. split; auto. split; auto. split; auto. split; auto.
    intros HP. destruct (X5 HP) as (? & ? & _); auto.
Qed.
Print Assumptions C53_reuse.
Example C53_example :
  wf ex_tlv /\ delim ex_tlv = SD /\ dec_again ex_tlv = true /\ busy ex_tlv = true /\
  Forall2 (reads ex_tlv) [ex_tlv_bytes; [x08; x00; x00]; ex_tlv_bytes]
                         [ex_tlv_item; (8%N, []); ex_tlv_item] /\
  13 + 3 <= pushes (repeat (3, HUnknown) 16).
Proof.
  split; [apply ex_tlv_wf|]. do 3 (split; [reflexivity|]). split.
  - repeat (constructor; [apply ex_tlv_reads1 || apply ex_tlv_reads2|]). constructor.
  - cbn; lia.
Qed.

(** ** C54: encoders are reusable *)
Theorem C54_reuse : forall A (c : codec A) ws jobs,
  wf c -> enc_again c = true ->
  (* one item and enough buffers for each encoding *)
  Forall2 (wire c) ws (map fst jobs) ->
  Forall2 (fun w job => snd job <> [] /\ length w <= room (snd job)) ws jobs ->
  exists f0, forall fuel, f0 < fuel ->
  exists s, encode_items (encoder c) fuel (enc_fresh c) [] jobs = (s, concat ws, Ok tt) /\
            enc_idle (encoder c) s = true.
Proof.
  intros A c ws jobs WF AG HF HB.
  pose proof (proj1 term_enc_ok A c WF) as EO. unfold code_enc_ok in EO. rewrite AG in EO.
  destruct (enc_ok_again EO) as (P & HE & H0 & RS).
  destruct (encode_items_ok HE RS HF HB) as (f0 & K). exists f0. intros fuel F.
  destruct (K fuel (enc_fresh c) [] H0 F) as (s & X & _ & ID). eauto.
Qed.
Print Assumptions C54_reuse.
Example C54_example :
  let jobs := [(ex_tlv_item, [[x00; x00]; []; [x00; x00; x00; x00]]); ((8%N, []), [[x00; x00; x00]])] in
  let ws := [ex_tlv_bytes; [x08; x00; x00]] in
  wf ex_tlv /\ enc_again ex_tlv = true /\ Forall2 (wire ex_tlv) ws (map fst jobs) /\
  Forall2 (fun w job => snd job <> [] /\ length w <= room (snd job)) ws jobs.
Proof.
  split; [apply ex_tlv_wf|]. split; [reflexivity|]. split.
  - repeat (constructor; [apply ex_tlv_wire1 || apply ex_tlv_wire2|]). constructor.
  - repeat constructor; try discriminate; cbn; lia.
Qed.
