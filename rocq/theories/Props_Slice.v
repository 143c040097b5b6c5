(** * C18, C19: slices. *)
From Verif Require Import SliceProofs Session Examples.
Set Implicit Arguments.

(** ** C18: the budget.  Any decoder or encoder, any calls. *)
Theorem C18_budget_decoder : forall S I (D : Decoder S I) st n used st',
  slice_calls D (slice_set st n) used st' ->
  (used + sl_consumable st' = n)%N /\ (slice_suspended st' = true <-> used = n).
Proof.
  intros S I D st n used st' H.
  assert (E : (used + sl_consumable st' = n)%N).
  { induction H as [|used st1 fuel buf e st2 r H IH X|used st1 st2 r H IH X]; auto.
    - destruct st1 as [s c]. cbn in X. unfold slice_decode in X; cbn in X, IH.
      destruct (eos_back _ _); [|injection X as <- <-; cbn; lia].
      destruct (dec_decode D fuel s _ _) as [s1 [k| | |]]; try (injection X as <- <-; cbn; lia).
      unfold u64_sub in X. destruct (N.leb_spec (N.of_nat k) c); injection X as <- <-; cbn; lia.
    - destruct st1 as [s c]. cbn in X, IH. destruct (dec_finish D s). injection X as <- <-. auto. }
  split; auto. unfold slice_suspended. rewrite N.eqb_eq. lia.
Qed.
Print Assumptions C18_budget_decoder.
Theorem C18_budget_encoder : forall S I (E : Encoder S I) st n used st',
  slice_ecalls E (slice_set st n) used st' ->
  (used + sl_consumable st' = n)%N /\ (slice_suspended st' = true <-> used = n).
Proof.
  intros S I E st n used st' H.
  assert (Q : (used + sl_consumable st' = n)%N).
  { induction H as [|used st1 fuel buf e st2 b r H IH X|used st1 fuel i st2 r H IH X]; auto.
    - destruct st1 as [s c]. cbn in X. unfold slice_encode in X; cbn in X, IH.
      destruct (eos_back _ _); [|injection X as <- _ <-; cbn; lia].
      destruct (enc_encode E fuel s _ _) as [[s1 b1] [k| | |]]; try (injection X as <- _ <-; cbn; lia).
      unfold u64_sub in X. destruct (N.leb_spec (N.of_nat k) c); injection X as <- _ <-; cbn; lia.
    - destruct st1 as [s c]. cbn in X, IH. destruct (enc_start E fuel s i). injection X as <- <-. auto. }
  split; auto. unfold slice_suspended. rewrite N.eqb_eq. lia.
Qed.
Print Assumptions C18_budget_encoder.

(** Bytes beyond the budget are not looked at by a decoder and not touched by an encoder. *)
Theorem C18_beyond_decoder : forall S I (D : Decoder S I) fuel st seen x y e,
  sl_consumable st = len seen -> length x = length y ->
  dec_decode (slice_decoder D) fuel st (seen ++ x) e = dec_decode (slice_decoder D) fuel st (seen ++ y) e.
Proof.
  intros S I D fuel [s c] seen x y e C L. cbn in C. subst c. cbn. unfold slice_decode; cbn [sl_inner sl_consumable].
  assert (LL : len (seen ++ y) = len (seen ++ x)) by (unfold len; rewrite !app_length; lia). rewrite LL.
  assert (FF : forall z, firstn (N.to_nat (N.min (len (seen ++ x)) (len seen))) (seen ++ z) = seen).
  { intros z. replace (N.to_nat (N.min (len (seen ++ x)) (len seen))) with (length seen + 0)
      by (rewrite len_app; unfold len; lia). rewrite firstn_app_2. cbn. apply app_nil_r. }
  rewrite !FF. reflexivity.
Qed.
Print Assumptions C18_beyond_decoder.
(** [E] does not change the size of the buffer it is given (it cannot: it is a slice in the code). *)
Theorem C18_beyond_encoder : forall S I (E : Encoder S I) fuel st buf e st' buf' r,
  (forall fuel s b e s' b' r, enc_encode E fuel s b e = (s', b', r) -> length b' = length b) ->
  enc_encode (slice_encoder E) fuel st buf e = (st', buf', r) ->
  skipn (N.to_nat (sl_consumable st)) buf' = skipn (N.to_nat (sl_consumable st)) buf.
Proof.
  intros S I E fuel [s c] buf e st' buf' r HL. cbn. unfold slice_encode; cbn [sl_inner sl_consumable].
  set (limit := N.to_nat (N.min (len buf) c)).
  destruct (eos_back _ _); [|intros [= _ <- _]; auto].
  destruct (enc_encode E fuel s (firstn limit buf) e0) as [[s1 b1] r1] eqn:X.
  apply HL in X. rewrite firstn_length in X.
  assert (Q : skipn (N.to_nat c) (b1 ++ skipn limit buf) = skipn (N.to_nat c) buf).
  { rewrite skipn_app. destruct (le_lt_dec (length buf) (N.to_nat c)).
    - assert (LI : limit = length buf) by (unfold limit, len; lia).
      rewrite LI, skipn_all, skipn_nil, app_nil_r, (skipn_all2 b1), (skipn_all2 buf) by lia. reflexivity.
    - assert (LI : limit = N.to_nat c) by (unfold limit, len; lia).
      rewrite LI in *. rewrite skipn_all2 by lia. cbn. replace (N.to_nat c - length b1) with 0 by lia. reflexivity. }
  destruct r1; try (intros [= _ <- _]; exact Q).
  destruct (u64_sub _ _); intros [= _ <- _]; exact Q.
Qed.
Print Assumptions C18_beyond_encoder.

(** ** C18: suspension loses nothing *)

(** For any decoder: whatever the budgets and buffers, what happens is what would have happened
    without slicing and with smaller buffers.  (With [C01] and [C02]: the same item comes out.) *)
Theorem C18_transparent : forall S I (D : Decoder S I) fuel rounds st input st' rest r,
  honest D -> (len input <= u64_max)%N ->
  feed_slices D fuel st input rounds = (st', rest, r) ->
  exists sched,
    feed D fuel (sl_inner st) input sched = (sl_inner st', rest, r) /\
    incl (map snd sched) (concat (map (fun x => map snd (snd x)) rounds)).
Proof. intros. eapply feed_slices_sim; eauto. Qed.
Print Assumptions C18_transparent.

(** Self-delimiting decoders: exactly the bytes of the item that fit the budgets and buffers are
    consumed, and once all are, the decoder is idle with the item. *)
Theorem C18_resume : forall A (c : codec A) w a extra rounds fuel,
  wf c -> delim c = SD -> reads c w a ->
  (len (w ++ extra) <= u64_max)%N -> length (w ++ extra) < fuel ->
  exists st,
    feed_slices (decoder c) fuel (slice_new (dec_fresh c)) (w ++ extra) rounds
      = (st, skipn (min (length w) (allowed rounds)) (w ++ extra), Ok tt) /\
    (w <> [] -> (dec_idle (slice_decoder (decoder c)) st = true <-> length w <= allowed rounds)) /\
    (dec_idle (slice_decoder (decoder c)) st = true ->
     exists st', dec_finish (slice_decoder (decoder c)) st = (st', Ok a)).
Proof.
  intros A c w a extra rounds fuel WF M R L F.
  destruct (proj1 term_dec_ok A c WF) as (P & Q & HD & H0 & _ & _). rewrite M in HD.
  destruct (@feed_slices_sd _ _ (decoder c) Q fuel extra a rounds (slice_new (dec_fresh c)) w (HD _ _ _ H0 R) L F)
    as (s & b & X1 & X2 & X3).
  exists (mkSlice s b). split; auto. cbn. split.
  - intros NE. split; [|now auto]. intros id. destruct (parses_idle X2 id) as (E & _).
    apply (f_equal (@length byte)) in E. rewrite skipn_length in E. cbn in E. lia.
  - intros id. destruct (parses_idle X2 id) as (_ & _ & s' & E & _). rewrite E. eauto.
Qed.
Print Assumptions C18_resume.
(** Every decoder, also the ones whose items end with the stream: every call succeeds, and a decoder
    that is idle has consumed the stream and gives the item. *)
Theorem C18_resume_to_eos : forall A (c : codec A) w a rounds fuel,
  wf c -> reads c w a -> Forall (fun r => ends (snd r)) rounds -> length w < fuel ->
  exists st rest,
    feed_slices (decoder c) fuel (slice_new (dec_fresh c)) w rounds = (st, rest, Ok tt) /\
    (dec_idle (slice_decoder (decoder c)) st = true ->
     rest = [] /\ exists st', dec_finish (slice_decoder (decoder c)) st = (st', Ok a)).
Proof.
  intros A c w a rounds fuel WF R EN F.
  destruct (proj1 term_dec_ok A c WF) as (P & Q & HD & H0 & _ & _).
  pose proof (HD _ _ _ H0 R) as PA. pose proof (parses_len PA) as LW. pose proof isize_u64 as IU.
  destruct (feed_slices (decoder c) fuel (slice_new (dec_fresh c)) w rounds) as [[st rest] r] eqn:E.
  destruct (@C18_transparent _ _ (decoder c) fuel rounds (slice_new (dec_fresh c)) w st rest r (proj1 term_honest A c) ltac:(lia) E) as (sched & X & IN).
  cbn [sl_inner slice_new] in X.
  assert (NN : no_never sched).
  { apply Forall_forall. intros [k h] K E0. cbn in E0. subst h.
    assert (K' : In HNever (map snd sched)) by (apply in_map_iff; exists (k, HNever); auto).
    apply IN in K'. apply in_concat in K'. destruct K' as (l & Hl & Kl).
    apply in_map_iff in Hl. destruct Hl as (rd & <- & Hr).
    rewrite Forall_forall in EN. apply EN in Hr. unfold ends in Hr. rewrite Forall_forall in Hr.
    apply in_map_iff in Kl. destruct Kl as ([k' h'] & Eh & Hk). cbn in Eh. subst h'. apply Hr in Hk. now apply Hk. }
  destruct (feed_exact (fuel := fuel) PA NN F) as (s' & Y1 & Y2 & Y3 & _). rewrite Y1 in X. injection X as EI <- <-. subst s'.
  exists st, (skipn (offered sched) w). split; auto. cbn. intros id. destruct (Y3 id) as [LE _].
  split; [now rewrite skipn_all2 by lia|].
  destruct (parses_idle Y2 id) as (_ & _ & s'' & Z & _). rewrite Z. eauto.
Qed.
Print Assumptions C18_resume_to_eos.
(** Encoders: the bytes written under any budgets are the encoding, cut where the
    budgets and buffers end. *)
Theorem C18_resume_encoder : forall A (c : codec A) w a,
  wf c -> wire c w a ->
  exists f0, forall fuel rounds, Forall (fun r => f0 + room (snd r) < fuel) rounds -> f0 <= fuel ->
  exists st1 st,
    enc_start (slice_encoder (encoder c)) fuel (slice_new (enc_fresh c)) a = (st1, Ok tt) /\
    drain_slices (encoder c) fuel st1 [] rounds = (st, firstn (allowed_out rounds) w, Ok tt) /\
    (w <> [] -> (enc_idle (slice_encoder (encoder c)) st = true <-> length w <= allowed_out rounds)).
Proof.
  intros A c w a WF W. destruct (proj1 term_enc_ok A c WF) as (P & Q & HE & H0 & _).
  destruct (HE _ _ W) as (f0 & AC). exists f0. intros fuel rounds FA F.
  destruct (AC _ H0 fuel F) as (s1 & X1 & EM). cbn. rewrite X1.
  destruct (@drain_slices_ok _ _ (encoder c) f0 Q fuel rounds (mkSlice s1 0) w [] EM FA) as (s & b & Y1 & Y2 & Y3).
  exists (mkSlice s1 0), (mkSlice s b). split; auto. split; auto. intros NE. cbn. split; [|now auto].
  intros id. destruct (emits_idle Y2 id) as (E & _).
  apply (f_equal (@length byte)) in E. rewrite skipn_length in E. cbn in E. lia.
Qed.
Print Assumptions C18_resume_encoder.

(** A message in three slices of 2, 5 and 100 bytes, on a stream that goes on. *)
Definition ex_rounds : list (N * schedule) :=
  [(2%N, [(1, HUnknown); (5, HExact)]); (5%N, [(2, HExact); (2, HUnknown); (9, HNever)]); (100%N, [(50, HExact)])].
Example C18_example :
  wf ex_msg /\ delim ex_msg = SD /\ reads ex_msg ex_msg_bytes ex_msg_item /\
  exists st, feed_slices (decoder ex_msg) 99 (slice_new (dec_fresh ex_msg)) (ex_msg_bytes ++ [x2a]) ex_rounds
     = (st, [x2a], Ok tt) /\ snd (dec_finish (slice_decoder (decoder ex_msg)) st) = Ok ex_msg_item.
Proof.
  split; [apply ex_msg_wf|]. split; [reflexivity|]. split; [apply ex_msg_reads|].
  eexists. split; [vm_compute; reflexivity|]. vm_compute. reflexivity.
Qed.
Example C18_budget_example : exists st, slice_calls (decoder ex_msg) (slice_set (slice_new (dec_fresh ex_msg)) 4) 4 st /\
  slice_suspended st = true.
Proof.
  pose proof (sc_start (decoder ex_msg) (slice_set (slice_new (dec_fresh ex_msg)) 4)) as H.
  eapply sc_decode with (fuel := 99) (buf := firstn 3 ex_msg_bytes) (e := Unknown) in H; [|vm_compute; reflexivity].
  eapply sc_finish in H; [|vm_compute; reflexivity].
  eapply sc_decode with (fuel := 99) (buf := skipn 3 ex_msg_bytes) (e := Unknown) in H; [|vm_compute; reflexivity].
  eexists. split; [exact H|reflexivity].
Qed.

(** ** C19: demultiplexing *)
Theorem C19_demux : forall S0 I0 S1 I1 Sh (D0 : Decoder S0 I0) (D1 : Decoder S1 I1)
    (H : Decoder Sh (bool * N)) header (Pre : Sh -> Prop) P0 P1 s0 s1 h w0 w1 i0 i1 segs stream plan extra fuel,
  parses D0 SD P0 s0 w0 i0 -> parses D1 SD P1 s1 w1 i1 -> w0 <> [] -> w1 <> [] ->
  decodes H SD header Pre Pre -> Pre h ->
  muxed header segs stream plan -> bytes_for false segs = w0 -> bytes_for true segs = w1 ->
  (len (stream ++ extra) <= u64_max)%N -> length (stream ++ extra) < fuel ->
  exists h' st0 st1,
    demux D0 D1 H fuel h (slice_new s0) (slice_new s1) (stream ++ extra) plan = (h', st0, st1, extra, Ok tt) /\
    dec_idle (slice_decoder D0) st0 = true /\ dec_idle (slice_decoder D1) st1 = true /\
    (exists st0', dec_finish (slice_decoder D0) st0 = (st0', Ok i0) /\ P0 (sl_inner st0')) /\
    (exists st1', dec_finish (slice_decoder D1) st1 = (st1', Ok i1) /\ P1 (sl_inner st1')).
Proof.
  intros S0 I0 S1 I1 Sh D0 D1 H header Pre P0 P1 s0 s1 h w0 w1 i0 i1 segs stream plan extra fuel
         H0 H1 N0 N1 HH Ph M <- <- L F.
  destruct (@demux_ok _ _ _ _ _ D0 D1 H header Pre P0 P1 HH i0 i1 extra fuel segs stream plan M h
             (slice_new s0) (slice_new s1) Ph H0 H1 L F) as (h' & st0 & st1 & X1 & _ & X3 & X4 & X5 & X6).
  specialize (X5 (or_introl N0)). specialize (X6 (or_introl N1)).
  exists h', st0, st1. split; auto. cbn. split; auto. split; auto.
  destruct (parses_idle X3 X5) as (_ & _ & t0 & Z0 & Q0). destruct (parses_idle X4 X6) as (_ & _ & t1 & Z1 & Q1).
  rewrite Z0, Z1. split; eauto.
Qed.
Print Assumptions C19_demux.

(** For terms: the two items and the headers are encodings of any codecs of the language. *)
Theorem C19_terms : forall A0 A1 (c0 : codec A0) (c1 : codec A1) (ch : codec (bool * N))
    w0 w1 a0 a1 segs stream plan extra fuel,
  wf c0 -> wf c1 -> wf ch -> delim c0 = SD -> delim c1 = SD -> delim ch = SD -> dec_again ch = true ->
  reads c0 w0 a0 -> reads c1 w1 a1 -> w0 <> [] -> w1 <> [] ->
  muxed (reads ch) segs stream plan -> bytes_for false segs = w0 -> bytes_for true segs = w1 ->
  (len (stream ++ extra) <= u64_max)%N -> length (stream ++ extra) < fuel ->
  exists h' st0 st1,
    demux (decoder c0) (decoder c1) (decoder ch) fuel (dec_fresh ch)
        (slice_new (dec_fresh c0)) (slice_new (dec_fresh c1)) (stream ++ extra) plan
      = (h', st0, st1, extra, Ok tt) /\
    (exists st0', dec_finish (slice_decoder (decoder c0)) st0 = (st0', Ok a0)) /\
    (exists st1', dec_finish (slice_decoder (decoder c1)) st1 = (st1', Ok a1)).
Proof.
  intros A0 A1 c0 c1 ch w0 w1 a0 a1 segs stream plan extra fuel W0 W1 WH M0 M1 MH AG R0 R1 N0 N1 MU B0 B1 L F.
  destruct (proj1 term_dec_ok A0 c0 W0) as (P0 & Q0 & HD0 & H0 & _ & _). rewrite M0 in HD0.
  destruct (proj1 term_dec_ok A1 c1 W1) as (P1 & Q1 & HD1 & H1 & _ & _). rewrite M1 in HD1.
  pose proof (proj1 term_dec_ok _ ch WH) as OK. unfold code_dec_ok in OK. rewrite MH, AG in OK.
  destruct (dec_ok_again OK) as (PH & HDH & HH & _).
  destruct (@C19_demux _ _ _ _ _ (decoder c0) (decoder c1) (decoder ch) (reads ch) PH Q0 Q1 (dec_fresh c0) (dec_fresh c1)
      (dec_fresh ch) w0 w1 a0 a1 segs stream plan extra fuel) as (h' & st0 & st1 & X1 & _ & _ & (t0 & X2 & _) & (t1 & X3 & _)); auto.
  exists h', st0, st1. split; auto. split; eauto.
Qed.
Print Assumptions C19_terms.
(** Two byte header (receiver, length); a number and a record, in four segments. *)
Definition ex_header : codec (bool * N) :=
  CMap (fun x => (negb (fst x =? 0)%N, snd x)) (fun x => (if fst x then 1%N else 0%N, snd x))
    (CTuple (PTwo (CU NU8) (CU NU8))).
Definition ex_segs : list segment :=
  [(false, [x12]); (true, [x07; x00; x02]); (false, [x34]); (true, [xaa; xbb])].
Definition ex_stream : list byte :=
  [x00; x01; x12; x01; x03; x07; x00; x02; x00; x01; x34; x09; x02; xaa; xbb].
Definition ex_plan : list (schedule * schedule) :=
  [([(1, HUnknown); (9, HExact)], [(1, HExact)]); ([(2, HNever)], [(1, HUnknown); (2, HExact)]);
   ([(1, HExact); (1, HExact)], [(7, HUnknown)]); ([(2, HExact)], [(9, HExact)])].
Example C19_example :
  wf ex_header /\ delim ex_header = SD /\ dec_again ex_header = true /\
  muxed (reads ex_header) ex_segs ex_stream ex_plan /\
  reads (CU NU16be) (bytes_for false ex_segs) 4660%N /\
  reads ex_tlv (bytes_for true ex_segs) ex_tlv_item /\
  exists h st0 st1, demux (decoder (CU NU16be)) (decoder ex_tlv) (decoder ex_header) 99 (dec_fresh ex_header)
        (slice_new (dec_fresh (CU NU16be))) (slice_new (dec_fresh ex_tlv)) (ex_stream ++ [x2a]) ex_plan
      = (h, st0, st1, [x2a], Ok tt) /\
    snd (dec_finish (slice_decoder (decoder (CU NU16be))) st0) = Ok 4660%N /\
    snd (dec_finish (slice_decoder (decoder ex_tlv)) st1) = Ok ex_tlv_item.
Proof.
  split; [cbn; auto|]. split; [reflexivity|]. split; [reflexivity|]. split.
  { assert (RH : forall x y who n, num_bytes NU8 x [y] -> negb (x =? 0)%N = who ->
        forall z, num_bytes NU8 n [z] -> reads ex_header [y; z] (who, n)).
    { intros x y who n K1 K2 z K3. exists (x, n). split; [|cbn; congruence].
      split; [discriminate|]. exists [y], [z]. auto. }
    unfold ex_segs, ex_stream, ex_plan.
    change [x00; x01; x12; x01; x03; x07; x00; x02; x00; x01; x34; x09; x02; xaa; xbb]
      with ([x00; x01] ++ [x12] ++ [x01; x03] ++ [x07; x00; x02] ++ [x00; x01] ++ [x34] ++ [x09; x02] ++ [xaa; xbb] ++ []).
    repeat (apply mux_cons; [eapply RH; [split; reflexivity|reflexivity|split; reflexivity]|discriminate|cbn; lia|cbn; lia|]).
    apply mux_nil. }
  split; [split; reflexivity|]. split; [apply ex_tlv_reads1|].
  do 3 eexists. split; [vm_compute; reflexivity|]. split; vm_compute; reflexivity.
Qed.
