(** * Theorems about last(), padding, the monolithic adapters, OwnedSlice and the setters:
      C32, C33, C47, C57, C58. *)
From Coq Require Import Lia ZifyBool ZifyNat ZifyN.
From Verif Require Import ObserveProofs Props_Comb.
Set Implicit Arguments.

(** ** C32: last(item) *)
Definition nonempty (bufs : list (list byte)) : nat :=
  length (filter (fun b => negb (length b =? 0)) bufs).
Definition la_todo {S I} (E : Encoder S I) f0 (P : S -> Prop) (i : I) (w1 : list byte)
    (st : Last S I) (w : list byte) (c : nat) : Prop :=
  match la_item st with
  | Some j => j = i /\ exists w0, w = w0 ++ w1 /\ emits E f0 P (la_inner st) w0 /\
                c = length w + (if enc_idle E (la_inner st) then 1 else 2)
  | None => emits E f0 P (la_inner st) w /\ c = length w + (if enc_idle E (la_inner st) then 0 else 1)
  end.
Lemma last_step : forall S I (E : Encoder S I) f0 (P : S -> Prop) i w1 st w c fuel b,
  (forall s, P s -> accepts E f0 P s i w1) -> rests E P ->
  la_todo E f0 P i w1 st w c -> enc_idle (last_encoder E) st = false -> f0 + length b < fuel ->
  exists st' k b' c', enc_encode (last_encoder E) fuel st b (eos_new false) = (st', b', Ok k) /\
    k <= length b /\ firstn k b' = firstn k w /\ skipn k b' = skipn k b /\ k <= length w /\
    la_todo E f0 P i w1 st' (skipn k w) c' /\
    (0 < length b -> c' < c) /\ c' <= c.
Proof.
  intros S I E f0 P i w1 [s it] w c fuel b AC RS H id F.
  (* one call of the inner encoder *)
  assert (ONE : forall s v, emits E f0 P s v -> enc_idle E s = false ->
    exists s' k b', enc_encode E fuel s b (eos_new false) = (s', b', Ok k) /\
      k = min (length b) (length v) /\ firstn k b' = firstn k v /\ skipn k b' = skipn k b /\
      emits E f0 P s' (skipn k v) /\ enc_idle E s' = (length v <=? length b)).
  { intros s0 v EM id0. destruct (le_lt_dec (length v) (length b)) as [K|K].
    - destruct (emits_last (eos_new false) EM id0 K (fuel := fuel) F) as (s' & X & id' & EM').
      exists s', (length v), (v ++ skipn (length v) b). split; auto. split; [lia|].
      rewrite firstn_app_exact, skipn_app_exact, firstn_all, skipn_all.
      replace (length v <=? length b) with true by lia. auto.
    - rewrite (split_at (length b) v) in EM.
      assert (NE : skipn (length b) v <> []).
      { intros X. apply (f_equal (@length byte)) in X. rewrite skipn_length in X. cbn in X. lia. }
      destruct (emits_more EM id0 (e := eos_new false) (buf := b) (fuel := fuel)) as (s1 & X & id1 & H1);
        [rewrite firstn_length; lia|auto|auto|lia|].
      exists s1, (length b), (firstn (length b) v). split; auto. split; [lia|].
      rewrite firstn_firstn, Nat.min_id. split; auto. split.
      { rewrite skipn_all, skipn_all2; auto. rewrite firstn_length; lia. }
      split; auto. replace (length v <=? length b) with false by lia. auto. }
  assert (LEN : forall k (v : list byte), length (skipn k v) = length v - k) by (intros; apply skipn_length).
  destruct it as [j|]; cbn [la_todo la_item la_inner] in H.
  - destruct H as (-> & w0 & -> & EM & ->).
    cbn [enc_encode last_encoder]. unfold last_encode. cbn [la_inner la_item].
    destruct (enc_idle E s) eqn:ids.
    + (* the pending item is complete: start the last one *)
      destruct (emits_idle EM ids) as (-> & HP). destruct (AC s HP fuel ltac:(lia)) as (s1 & X & EM1).
      rewrite X. cbn [app]. destruct (enc_idle E s1) eqn:id1.
      * destruct (emits_idle EM1 id1) as (-> & HP1). destruct (RS _ HP1) as (_ & _ & RE).
        destruct (RE fuel b (eos_new false) ltac:(lia)) as (s2 & X2 & HP2). rewrite X2.
        exists (mkLast s2 None), 0, b, 0. split; auto. split; [lia|]. split; auto. split; auto. split; [lia|].
        split; [|cbn; lia]. cbn. destruct (RS _ HP2) as (id2 & _). rewrite id2. split; auto.
        eapply emits_fuel; [|eapply rests_emits; eauto]. lia.
      * destruct (ONE _ _ EM1 id1) as (s2 & k & b' & X2 & K & A & B & C & D). rewrite X2.
        exists (mkLast s2 None), k, b', (length (skipn k w1) + (if enc_idle E s2 then 0 else 1)).
        split; auto. split; [lia|]. split; auto. split; auto. split; [lia|].
        split; [cbn; auto|]. rewrite LEN, D. destruct (length w1 <=? length b) eqn:Y; lia.
    + (* the pending item goes on *)
      destruct (ONE _ _ EM ids) as (s2 & k & b' & X2 & K & A & B & C & D). rewrite X2.
      exists (mkLast s2 (Some i)), k, b', (length (skipn k (w0 ++ w1)) + (if enc_idle E s2 then 1 else 2)).
      split; auto. split; [lia|].
      assert (SK : skipn k (w0 ++ w1) = skipn k w0 ++ w1).
      { rewrite skipn_app. replace (k - length w0) with 0 by lia. reflexivity. }
      assert (FK : firstn k (w0 ++ w1) = firstn k w0).
      { rewrite firstn_app. replace (k - length w0) with 0 by lia. cbn. apply app_nil_r. }
      rewrite FK, SK. split; auto. split; auto. rewrite !app_length. split; [lia|].
      split; [cbn; split; auto; exists (skipn k w0); rewrite app_length; auto|].
      rewrite LEN, D. destruct (length w0 <=? length b) eqn:Y; lia.
  - destruct H as (EM & ->). cbn in id. cbn [enc_encode last_encoder]. unfold last_encode.
    cbn [la_inner la_item]. rewrite id.
    destruct (ONE _ _ EM id) as (s2 & k & b' & X2 & K & A & B & C & D). rewrite X2.
    exists (mkLast s2 None), k, b', (length (skipn k w) + (if enc_idle E s2 then 0 else 1)).
    split; auto. split; [lia|]. split; auto. split; auto. split; [lia|].
    split; [cbn; auto|]. rewrite LEN, D. destruct (length w <=? length b) eqn:Y; lia.
Qed.
Lemma last_drain : forall S I (E : Encoder S I) f0 (P : S -> Prop) i w1 fuel,
  (forall s, P s -> accepts E f0 P s i w1) -> rests E P ->
  forall bufs st w c out, la_todo E f0 P i w1 st w c -> f0 + room bufs < fuel ->
  exists st' k c', drain (last_encoder E) fuel st out bufs = (st', out ++ firstn k w, Ok tt) /\
    k <= room bufs /\ k <= length w /\ la_todo E f0 P i w1 st' (skipn k w) c' /\
    (c <= nonempty bufs -> enc_idle (last_encoder E) st' = true).
Proof.
  intros S I E f0 P i w1 fuel AC RS.
  assert (Z : forall st w c, la_todo E f0 P i w1 st w c -> c = 0 -> enc_idle (last_encoder E) st = true).
  { intros [s [j|]] w c H ->; cbn in *.
    - destruct H as (_ & w0 & _ & _ & X). destruct (enc_idle E s); lia.
    - destruct H as (_ & X). destruct (enc_idle E s); auto. lia. }
  induction bufs as [|b bufs IH]; intros st w c out H F.
  - exists st, 0, c. cbn. rewrite app_nil_r. split; auto. split; [lia|]. split; [lia|]. split; auto.
    intros L. eapply Z; eauto. unfold nonempty in L. cbn in L. lia.
  - cbn [room fold_right] in F. fold (room bufs) in F. cbn [drain].
    destruct (enc_idle (last_encoder E) st) eqn:id.
    + exists st, 0, c. cbn [firstn skipn]. rewrite app_nil_r. split; auto. split; [lia|]. split; [lia|]. auto.
    + destruct (@last_step _ _ E f0 P i w1 st w c fuel b AC RS H id) as (st1 & k & b' & c1 & X & K1 & K2 & K3 & K4 & T & M1 & M2); [lia|].
      rewrite X, K2.
      destruct (IH st1 (skipn k w) c1 (out ++ firstn k w) T ltac:(lia)) as (st2 & k2 & c2 & Y1 & Y2 & Y3 & Y4 & Y5).
      rewrite skipn_length in Y3. rewrite skipn_skipn in Y4. rewrite Nat.add_comm in Y4.
      exists st2, (k + k2), c2. split.
      { rewrite Y1, <- app_assoc. do 3 f_equal. rewrite <- (firstn_skipn k w) at 3.
        replace k with (length (firstn k w)) at 3 by (rewrite firstn_length; lia).
        now rewrite firstn_app_2. }
      split; [cbn [room fold_right]; fold (room bufs); lia|]. split; [lia|]. split; auto.
      intros L. apply Y5. unfold nonempty in *. cbn [filter] in L.
      destruct (length b =? 0) eqn:B0; cbn [negb] in L; cbn in L; lia.
Qed.
(** The pending bytes [w0], then those of the last item, [w1], then nothing: whatever the
    buffers, the output is a prefix of [w0 ++ w1], all of it when the encoder is idle, which it is
    after at most one non-empty buffer per byte and two more.  Idle, it outputs nothing more. *)
Theorem C32_last : forall S I (E : Encoder S I) f0 (P : S -> Prop) s i w0 w1,
  rests E P -> emits E f0 P s w0 -> (forall s, P s -> accepts E f0 P s i w1) ->
  forall fuel bufs, f0 + room bufs < fuel ->
  exists st k,
    drain (last_encoder E) fuel (last_new s i) [] bufs = (st, firstn k (w0 ++ w1), Ok tt) /\
    k <= room bufs /\
    (length (w0 ++ w1) + 2 <= nonempty bufs -> enc_idle (last_encoder E) st = true) /\
    (enc_idle (last_encoder E) st = true ->
       firstn k (w0 ++ w1) = w0 ++ w1 /\ P (la_inner st) /\ la_item st = None /\
       (forall fuel' b e, 0 < fuel' -> exists st',
          enc_encode (last_encoder E) fuel' st b e = (st', b, Ok 0) /\
          enc_idle (last_encoder E) st' = true)).
Proof.
  intros S I E f0 P s i w0 w1 RS EM AC fuel bufs F.
  assert (T : la_todo E f0 P i w1 (last_new s i) (w0 ++ w1)
                (length (w0 ++ w1) + (if enc_idle E s then 1 else 2))).
  { cbn. split; auto. exists w0. auto. }
  destruct (@last_drain _ _ E f0 P i w1 fuel AC RS bufs _ _ _ [] T F) as (st & k & c & X1 & X2 & X3 & X4 & X5).
  exists st, k. split; auto. split; auto. split.
  - intros L. apply X5. destruct (enc_idle E s); lia.
  - intros id. destruct st as [s' [j|]]; [discriminate|]. cbn in id, X4. destruct X4 as (EM' & _).
    destruct (emits_idle EM' id) as (SK & HP). split.
    { rewrite <- (firstn_skipn k (w0 ++ w1)) at 2. now rewrite SK, app_nil_r. }
    split; auto. split; auto. intros fuel' b e FU. destruct (RS _ HP) as (_ & _ & RE).
    destruct (RE fuel' b e FU) as (s2 & Y & HP2). destruct (RS _ HP2) as (id2 & _).
    exists (mkLast s2 None). cbn [enc_encode last_encoder]. unfold last_encode. cbn [la_inner la_item].
    rewrite id, Y. auto.
Qed.
Print Assumptions C32_last.
Example C32_example :
  rests (bytes_encoder vec_box) (@bytes_eidle (list byte)) /\
  emits (bytes_encoder vec_box) 0 (@bytes_eidle _) (mkBytesEnc (Some [x01; x02; x03]) 1) [x02; x03] /\
  exists f0, forall s, bytes_eidle s -> accepts (bytes_encoder vec_box) f0 (@bytes_eidle _) s [x04] [x04].
Proof.
  split; [apply bytes_rests|]. split.
  - exists (bytes_eR vec_box). split; [apply bytes_estep|]. split; [discriminate|]. exists [x01]. auto.
  - apply (@bytes_encodes _ vec_box). split; [reflexivity|discriminate].
Qed.
(** If the inner encoder refuses the item, [encode] reports that and writes nothing; the item is
    dropped, so that the next call does not try it again. *)
Theorem C32_refused : forall S I (E : Encoder S I) s i fuel buf e s' k,
  enc_idle E s = true -> enc_start E fuel s i = (s', Err k) ->
  exists st, enc_encode (last_encoder E) fuel (last_new s i) buf e = (st, buf, Err k) /\
    enc_idle (last_encoder E) st = enc_idle E s' /\ enc_req (last_encoder E) st = enc_req E s' /\
    forall fuel' buf' e', exists st' out r,
      enc_encode (last_encoder E) fuel' st buf' e' = (st', out, r) /\
      enc_encode E fuel' s' buf' e' = (la_inner st', out, r).
Proof.
  intros S I E s i fuel buf e s' k id X. cbn [enc_encode last_encoder]. unfold last_encode at 1.
  cbn [last_new la_inner la_item]. rewrite id, X. eexists. split; [reflexivity|].
  split; [reflexivity|]. split; [reflexivity|]. intros fuel' buf' e'. unfold last_encode.
  cbn [la_inner la_item].
  destruct (enc_encode E fuel' s' buf' e') as [[s2 b2] r2]. destruct (enc_idle E s'); eauto.
Qed.
Print Assumptions C32_refused.
Example C32_refused_example : exists s',
  enc_idle U24beEncoder num_enc_new = true /\
  enc_start U24beEncoder 9 num_enc_new 16777216%N = (s', Err InvalidInput).
Proof. eexists. split; reflexivity. Qed.
(** A buffer in which the pending item ends is not filled, so that [encode_all] fails if the pending
    item has no bytes left but is not idle; and [exact_requiring_bytes] counts the pending
    item only. *)
Theorem C32_exact_refuted : exists st,
  st = last_new (mkBytesEnc (Some [x01; x02; x03]) 1) [x04] /\
  last_enc_exact (bytes_enc_exact vec_box) st = Ok 2%N /\
  (exists st', drain (last_encoder (bytes_encoder vec_box)) 99 st [] (repeat [x00] 9)
       = (st', [x02; x03; x04], Ok tt) /\ enc_idle (last_encoder (bytes_encoder vec_box)) st' = true).
Proof. eexists. split; [reflexivity|]. split; [reflexivity|]. eexists. split; reflexivity. Qed.
Print Assumptions C32_exact_refuted.

(** ** C33: padding *)
Theorem C33_padding_encoder : forall b fuel bufs out,
  drain pad_encoder fuel (Some b) out bufs = (Some b, out ++ repeat b (room bufs), Ok tt).
Proof.
  intros b fuel. induction bufs as [|c bufs IH]; intros out; cbn [drain room fold_right].
  - now rewrite app_nil_r.
  - cbn [enc_idle pad_encoder enc_encode]. unfold pad_encode. change (is_reached (eos_new false)) with false.
    rewrite IH. fold (room bufs). rewrite map_const, firstn_all2 by (rewrite repeat_length; lia).
    now rewrite repeat_app, app_assoc.
Qed.
Print Assumptions C33_padding_encoder.
(** The call that announces the end fills its buffer and ends the padding. *)
Theorem C33_padding_encoder_eos : forall b fuel buf,
  enc_start pad_encoder fuel None b = (Some b, Ok tt) /\
  enc_encode pad_encoder fuel (Some b) buf (eos_new true) = (None, repeat b (length buf), Ok (length buf)) /\
  enc_idle pad_encoder None = true.
Proof. intros. repeat split. cbn. unfold pad_encode. cbn. now rewrite map_const. Qed.
Print Assumptions C33_padding_encoder_eos.
(** The decoder accepts exactly the streams of the expected byte (all streams if there is none),
    consumes them up to the end, and refuses the buffer with the first other byte. *)
Theorem C33_padding_decoder : forall b w, (len w <= isize_max)%N ->
  (forall c, b = Some c -> Forall (fun x => x = c) w) ->
  delivers pad_decoder ToEos (pad_dec_new b) w tt (fun st => st = pad_dec_new b).
Proof.
  intros b w L F. apply parses_delivers. apply (@pad_decodes b); [reflexivity|]. split; auto.
Qed.
Print Assumptions C33_padding_decoder.
Theorem C33_padding_rejects : forall c w fuel sched st rest r,
  feed pad_decoder fuel (pad_dec_new (Some c)) w sched = (st, rest, r) ->
  (r = Ok tt /\ exists used, w = used ++ rest /\ Forall (fun x => x = c) used) \/
  (r = Err InvalidInput /\ ~ Forall (fun x => x = c) (firstn (offered sched) w)).
Proof.
  intros c w fuel sched. 
  assert (A : forall sched s w st rest r, pd_expected s = Some c ->
    feed pad_decoder fuel s w sched = (st, rest, r) ->
    (r = Ok tt /\ exists used, w = used ++ rest /\ Forall (fun x => x = c) used) \/
    (r = Err InvalidInput /\ ~ Forall (fun x => x = c) (firstn (offered sched) w))).
  { clear. induction sched as [|[k h] sched IH]; intros s w st rest r EX X; cbn [feed] in X.
    - injection X as <- <- <-. left. split; auto. exists []. auto.
    - cbn [dec_idle pad_decoder] in X. destruct (pd_eos s) eqn:EO.
      + injection X as <- <- <-. left. split; auto. exists []. auto.
      + cbn [dec_decode pad_decoder] in X. unfold pad_decode in X. rewrite EO, EX in X.
        destruct (forallb _ (firstn k w)) eqn:FB; [apply forallb_eqb in FB|].
        * rewrite firstn_length in X.
          assert (SK : skipn (min k (length w)) w = skipn k w).
          { rewrite Nat.min_comm. apply skipn_min. }
          rewrite SK in X. apply IH in X; [|auto]. cbn [offered fold_right fst]. fold (offered sched).
          destruct X as [(-> & used & E1 & E2)|(-> & NF)]; [left|right]; split; auto.
          -- exists (firstn k w ++ used). rewrite <- app_assoc, <- E1, firstn_skipn. split; auto.
             apply Forall_app; auto.
          -- intros F. apply NF. rewrite firstn_skipn_comm.
             rewrite <- (firstn_skipn k (firstn (k + offered sched) w)) in F.
             now apply Forall_app in F.
        * injection X as <- <- <-. right. split; auto. cbn [offered fold_right fst]. fold (offered sched).
          intros F. assert (F' : Forall (fun x => x = c) (firstn k w)).
          { rewrite <- (firstn_skipn k (firstn (k + offered sched) w)) in F. apply Forall_app in F.
            destruct F as (F & _). rewrite firstn_firstn, Nat.min_l in F by lia. auto. }
          apply forallb_eqb in F'. congruence. }
  intros. eapply A; eauto. reflexivity.
Qed.
Print Assumptions C33_padding_rejects.
Example C33_example :
  feed pad_decoder 9 (pad_dec_new (Some xff)) [xff; xff; xff] [(2, HUnknown); (1, HExact)]
    = (mkPadDec (Some xff) true, [], Ok tt) /\
  feed pad_decoder 9 (pad_dec_new (Some xff)) [xff; xfe; xff] [(2, HUnknown); (1, HExact)]
    = (mkPadDec (Some xff) false, [xff; xfe; xff], Err InvalidInput).
Proof. split; reflexivity. Qed.

(** ** C47: the monolithic adapters *)

(** The function [f] sees the whole stream, in one piece, when the end is announced; its item is
    delivered, its error is returned. *)
Theorem C47_decoder : forall I (f : MonoDecode I) fuel pieces last e,
  Forall (fun p => is_reached (snd p) = false) pieces -> is_reached e = true ->
  dec_trace (mono_decoder f) mono_dec_new
    (map (fun p => OpDecode fuel (fst p) (snd p)) pieces
     ++ [OpIdle; OpFinish; OpDecode fuel last e; OpIdle; OpFinish; OpIdle])
  = map (fun p => ObDecode (Ok (length (fst p)))) pieces
    ++ [ObIdle false; ObFinish (Err IncompleteDecoding)]
    ++ match f (concat (map fst pieces) ++ last) with
       | (inl i, read) =>
           [ObDecode (Ok (min (length last) (read - length (concat (map fst pieces)))));
            ObIdle true; ObFinish (Ok i); ObIdle false]
       | (inr k, _) => [ObDecode (Err k); ObIdle false; ObFinish (Err IncompleteDecoding); ObIdle false]
       end.
Proof.
  intros I f fuel pieces last e P R.
  change mono_dec_new with (@mkMonoDec I None []).
  change (concat (map fst pieces)) with ([] ++ concat (map fst pieces)). generalize (@nil byte) as b.
  induction P as [|[c h] pieces Hc P IH]; intros b; cbn [map concat app dec_trace dec_do fst snd].
  - cbn. unfold mono_decode. rewrite R. cbn [md_buf]. rewrite app_nil_r.
    destruct (f (b ++ last)) as [[i|k] rd]; reflexivity.
  - cbn in Hc. cbn [dec_decode mono_decoder]. unfold mono_decode at 1. rewrite Hc. cbn [md_item md_buf].
    f_equal. rewrite IH, (app_assoc b c). reflexivity.
Qed.
Print Assumptions C47_decoder.
Theorem C47_encoder : forall I (f : MonoEncode I) i chunks,
  f i = (chunks, None) -> (len (concat chunks) <= isize_max)%N ->
  sends (mono_encoder f) mono_enc_new i (concat chunks) (@mono_eidle I).
Proof.
  intros I f i chunks X L. eapply encodes_sends; [apply mono_encodes|split; reflexivity|].
  exists chunks; auto.
Qed.
Print Assumptions C47_encoder.
(** If the function fails, its error is returned by the first call, nothing stays pending, and
    the encoder takes the next item. *)
Theorem C47_encoder_error : forall I (f : MonoEncode I) i j chunks k fuel buf e,
  f i = (chunks, Some k) -> exists s1 s2 b s3 buf',
  enc_start (mono_encoder f) fuel mono_enc_new i = (s1, Ok tt) /\
  enc_encode (mono_encoder f) fuel s1 buf e = (s2, buf', Err k) /\
  enc_idle (mono_encoder f) s2 = true /\
  (forall buf2 e2, enc_encode (mono_encoder f) fuel s2 buf2 e2 = (b, buf2, Ok 0)) /\
  enc_start (mono_encoder f) fuel s2 j = (s3, Ok tt).
Proof.
  intros I f i j chunks k fuel buf e X. do 5 eexists. split; [reflexivity|].
  split. { cbn. unfold mono_encode. cbn [me_item]. rewrite X. reflexivity. }
  split; [reflexivity|]. split; [reflexivity|]. reflexivity.
Qed.
Print Assumptions C47_encoder_error.
Example C47_example :
  let f : MonoDecode nat := fun w => (match w with [] => inr InvalidInput | _ => inl (length w) end, length w) in
  dec_trace (mono_decoder f) mono_dec_new
    [OpDecode 9 [x01; x02] Unknown; OpDecode 9 [] (Finite 1); OpDecode 9 [x03] (Finite 0); OpFinish]
    = [ObDecode (Ok 2); ObDecode (Ok 0); ObDecode (Ok 1); ObFinish (Ok 3)].
Proof. reflexivity. Qed.

(** ** C57: OwnedSlice *)
Definition os_window {T} (BX : ByteBox T) (o : OwnedSlice T) : list byte :=
  firstn (os_end o - os_start o) (skipn (os_start o) (bx_ref BX (os_inner o))).
(** Reading shows the window. *)
Theorem C57_window : forall T (BX : ByteBox T) o,
  os_start o <= os_end o <= length (bx_ref BX (os_inner o)) ->
  os_as_ref BX o = Ok (os_window BX o) /\
  length (os_window BX o) = os_end o - os_start o /\
  (forall n, n < os_end o - os_start o ->
     nth_error (os_window BX o) n = nth_error (bx_ref BX (os_inner o)) (os_start o + n)).
Proof.
  intros T BX o V. split.
  { unfold os_as_ref, os_valid. replace (os_start o <=? os_end o) with true by lia.
    replace (os_end o <=? _) with true by lia. reflexivity. }
  unfold os_window. split; [rewrite firstn_length, skipn_length; lia|].
  intros n L. rewrite <- (firstn_skipn (os_start o) (bx_ref BX (os_inner o))) at 2.
  rewrite nth_error_app2 by (rewrite firstn_length; lia).
  rewrite firstn_length. replace (os_start o + n - min (os_start o) _) with n by lia.
  rewrite <- (firstn_skipn (os_end o - os_start o) (skipn (os_start o) (bx_ref BX (os_inner o)))) at 2.
  rewrite nth_error_app1; auto. rewrite firstn_length, skipn_length. lia.
Qed.
Print Assumptions C57_window.
Lemma overwrite_window : forall (l : list byte) a w, a + length w <= length l ->
  overwrite l a w = firstn a l ++ w ++ skipn (a + length w) l.
Proof. reflexivity. Qed.
Lemma os_box_ok : forall T (BX : ByteBox T), box_ok BX -> box_ok (os_box BX).
Proof.
  intros T BX [GP PG PP].
  assert (RV : forall o, os_valid BX o = true ->
    bx_ref (os_box BX) o = firstn (os_end o - os_start o) (skipn (os_start o) (bx_ref BX (os_inner o)))).
  { intros o V. cbn. unfold os_as_ref. now rewrite V. }
  assert (OL : forall o l, os_valid BX o = true -> length l = length (bx_ref (os_box BX) o) ->
    length (overwrite (bx_ref BX (os_inner o)) (os_start o) l) = length (bx_ref BX (os_inner o))).
  { intros o l V L. rewrite RV, firstn_length, skipn_length in L by auto.
    unfold os_valid in V. apply overwrite_length. lia. }
  constructor.
  - intros o l L. destruct (os_valid BX o) eqn:V.
    2:{ cbn in *. unfold os_as_ref, os_as_mut_write in *. rewrite V in *. cbn.
        destruct l; [now rewrite V|discriminate]. }
    pose proof (OL o l V L) as L2. rewrite (RV o V), firstn_length, skipn_length in L.
    cbn. unfold os_as_mut_write. rewrite V. unfold os_as_ref, os_valid in *. cbn [os_start os_end os_inner].
    rewrite GP by exact L2. rewrite L2, V.
    unfold overwrite. rewrite skipn_app, firstn_length, skipn_all2 by (rewrite firstn_length; lia).
    replace (os_start o - min _ _) with 0 by lia. cbn [app skipn].
    replace (os_end o - os_start o) with (length l) by lia. apply firstn_app_exact.
  - intros o. cbn. unfold os_as_ref, os_as_mut_write. destruct (os_valid BX o) eqn:V; [|auto].
    unfold os_valid in V. unfold overwrite. rewrite firstn_length, skipn_length.
    replace (os_start o + min _ _) with (os_end o) by lia.
    replace (skipn (os_end o) (bx_ref BX (os_inner o)))
      with (skipn (os_end o - os_start o) (skipn (os_start o) (bx_ref BX (os_inner o)))).
    2:{ rewrite skipn_skipn. f_equal. lia. }
    rewrite !firstn_skipn, PG. now destruct o.
  - intros o l l' L L'. cbn. unfold os_as_mut_write. destruct (os_valid BX o) eqn:V.
    2:{ now rewrite V. }
    pose proof (OL o l V L) as L2. pose proof (OL o l' V L') as L3.
    rewrite (RV o V), firstn_length, skipn_length in L, L'.
    unfold os_valid in *. cbn [os_start os_end os_inner]. rewrite GP by exact L2. rewrite L2, V.
    f_equal. rewrite PP; [|exact L2|].
    + f_equal. unfold overwrite. rewrite firstn_app, firstn_firstn, Nat.min_id, firstn_length.
      replace (os_start o - min _ _) with 0 by lia. cbn [firstn]. rewrite app_nil_r. do 2 f_equal.
      rewrite app_assoc, skipn_app, skipn_all2 by (rewrite app_length, firstn_length; lia).
      cbn [app]. rewrite app_length, firstn_length, skipn_skipn. f_equal. lia.
    + rewrite overwrite_length; [exact L2|]. rewrite L2. lia.
Qed.
(** Decoding into the slice replaces exactly the bytes of the window. *)
Theorem C57_decode : forall T (BX : ByteBox T) o w, box_ok BX ->
  os_start o <= os_end o <= length (bx_ref BX (os_inner o)) ->
  length w = os_end o - os_start o -> (len w <= isize_max)%N ->
  exists o',
    delivers (bytes_decoder (os_box BX)) SD (bytes_dec_new o) w o' (fun st => bd_bytes st = None) /\
    os_start o' = os_start o /\ os_end o' = os_end o /\
    bx_ref BX (os_inner o') = firstn (os_start o) (bx_ref BX (os_inner o)) ++ w
                              ++ skipn (os_end o) (bx_ref BX (os_inner o)).
Proof.
  intros T BX o w OK V L B. destruct (C57_window BX o V) as (W1 & W2 & _).
  assert (BR : bx_ref (os_box BX) o = os_window BX o) by (cbn; now rewrite W1).
  exists (bx_put (os_box BX) o w). split.
  - apply parses_delivers. apply (@bytes_decodes _ _ (os_box_ok OK) o); [|split; reflexivity|split; auto].
    + rewrite BR. unfold len in *. lia.
    + rewrite BR. lia.
  - cbn. unfold os_as_mut_write, os_valid. replace (os_start o <=? os_end o) with true by lia.
    replace (os_end o <=? _) with true by lia. cbn. split; auto. split; auto.
    destruct OK as [GP _ _]. rewrite GP by (rewrite overwrite_length; lia).
    unfold overwrite. now replace (os_start o + length w) with (os_end o) by lia.
Qed.
Print Assumptions C57_decode.
(** Encoding outputs exactly the window. *)
Theorem C57_encode : forall T (BX : ByteBox T) o,
  os_start o <= os_end o <= length (bx_ref BX (os_inner o)) ->
  (len (os_window BX o) <= isize_max)%N ->
  sends (bytes_encoder (os_box BX)) bytes_enc_new o (os_window BX o) (@bytes_eidle _).
Proof.
  intros T BX o V B. destruct (C57_window BX o V) as (W1 & _).
  eapply encodes_sends; [apply bytes_encodes|reflexivity|].
  split; auto. cbn. now rewrite W1.
Qed.
Print Assumptions C57_encode.
Example C57_example :
  (let o := mkOwnedSlice [x01; x02; x03; x04; x05] 1 3 in
   os_start o <= os_end o <= length (bx_ref vec_box (os_inner o)) /\ os_window vec_box o = [x02; x03]) /\
  dec_trace (bytes_decoder (os_box vec_box)) (bytes_dec_new (mkOwnedSlice [x01; x02; x03; x04; x05] 1 3))
    [OpDecode 9 [xaa; xbb; xcc] Unknown; OpFinish]
    = [ObDecode (Ok 2); ObFinish (Ok (mkOwnedSlice [x01; xaa; xbb; x04; x05] 1 3))].
Proof. split; [split; [cbn; lia|reflexivity]|reflexivity]. Qed.

(** ** C58: the setters *)

(** [set_expected_bytes] of length(n): after calls that consumed [t] bytes of the item. *)
Theorem C58_length_decoder : forall S I (D : Decoder S I) s n t st m,
  decode_calls (length_decoder D) (length_new s n) t st ->
  (t = 0 -> length_set_expected st m = (length_new (ln_inner st) m, Ok tt)) /\
  (t <> 0 -> length_set_expected st m = (st, Err IncompleteDecoding)).
Proof.
  intros S I D s n t st m H. destruct (length_calls_inv H) as (A & B). cbn in A, B.
  unfold length_set_expected. split; intros T.
  - now replace (ln_remaining st =? ln_expected st)%N with true by lia.
  - now replace (ln_remaining st =? ln_expected st)%N with false by lia.
Qed.
Print Assumptions C58_length_decoder.
(** The same for an encoder, if the calls succeeded. *)
Inductive encode_ok_calls {S I} (E : Encoder S I) (s : S) : nat -> S -> Prop :=
| eok_nil : encode_ok_calls E s 0 s
| eok_call : forall t s1 fuel buf e s2 buf' k,
    encode_ok_calls E s t s1 -> enc_encode E fuel s1 buf e = (s2, buf', Ok k) ->
    enc_idle E s2 = false -> encode_ok_calls E s (t + k) s2.
Theorem C58_length_encoder : forall S I (E : Encoder S I) s n t st m,
  encode_ok_calls (length_encoder E) (length_new s n) t st ->
  (t = 0 -> length_set_expected st m = (length_new (ln_inner st) m, Ok tt)) /\
  (t <> 0 -> length_set_expected st m = (st, Err IncompleteDecoding)).
Proof.
  intros S I E s n t st m H.
  assert (A : (N.of_nat t + ln_remaining st = n)%N /\ ln_expected st = n).
  { induction H as [|t s1 fuel buf e s2 buf' k H (IA & IB) X _]; [cbn; auto|].
    cbn [enc_encode length_encoder] in X. unfold length_encode in X.
    destruct (_ && _); [discriminate|].
    destruct (enc_encode E fuel (ln_inner s1) _ _) as [[s' b'] [k'|k'| |]]; try discriminate.
    unfold u64_sub in X. destruct (N.of_nat k' <=? ln_remaining s1)%N eqn:K; [|discriminate].
    destruct (enc_idle E s' && _); [discriminate|]. injection X as <- <- <-. cbn. split; auto. lia. }
  destruct A as (A & B). unfold length_set_expected. split; intros T.
  - now replace (ln_remaining st =? ln_expected st)%N with true by lia.
  - now replace (ln_remaining st =? ln_expected st)%N with false by lia.
Qed.
Print Assumptions C58_length_encoder.
(** [set_max_bytes] of max_bytes(n): accepted iff the item has consumed at most [m] bytes; then
    [m] bounds the whole item, including what was consumed before. *)
Theorem C58_max_decoder : forall S I (D : Decoder S I) s n t st m,
  honest D -> decode_calls (max_decoder D) (max_new s n) t st ->
  ((m < N.of_nat t)%N -> max_set st m = (st, Err InvalidInput)) /\
  ((N.of_nat t <= m)%N -> exists st', max_set st m = (st', Ok tt) /\ mx_inner st' = mx_inner st /\
     forall t' st'', decode_calls (max_decoder D) st' t' st'' -> (N.of_nat (t + t') <= m)%N).
Proof.
  intros S I D s n t st m HO H.
  destruct (max_calls_inv HO (st0 := max_new s n) ltac:(cbn; lia) H) as (A & _). cbn in A.
  unfold max_set. split; intros T.
  - now replace (mx_consumed st <=? m)%N with false by lia.
  - replace (mx_consumed st <=? m)%N with true by lia. eexists. split; [reflexivity|]. split; auto.
    intros t' st'' C. apply (max_calls_inv HO) in C; [|cbn; lia]. cbn in C. lia.
Qed.
Print Assumptions C58_max_decoder.
Theorem C58_max_encoder : forall S I (E : Encoder S I) s n t st m,
  encode_ok_calls (max_encoder E) (max_new s n) t st ->
  ((m < N.of_nat t)%N -> max_set st m = (st, Err InvalidInput)) /\
  ((N.of_nat t <= m)%N -> exists st', max_set st m = (st', Ok tt) /\ mx_inner st' = mx_inner st /\
     forall t' st'', encode_ok_calls (max_encoder E) st' t' st'' -> (N.of_nat (t + t') <= m)%N).
Proof.
  intros S I E s n t st m.
  assert (G : forall st0 t st, encode_ok_calls (max_encoder E) st0 t st ->
    (mx_consumed st0 <= mx_max st0)%N ->
    mx_consumed st = (mx_consumed st0 + N.of_nat t)%N /\ mx_max st = mx_max st0 /\ 
    (mx_consumed st <= mx_max st)%N).
  { clear. intros st0 t st H L. induction H as [|t s1 fuel buf e s2 buf' k H (IA & IB & IC) X id]; [cbn; lia|].
    cbn [enc_encode max_encoder enc_idle] in *. unfold max_encode in X.
    destruct (enc_encode E fuel (mx_inner s1) _ _) as [[s' b'] [k'|k'| |]]; try discriminate.
    destruct (u64_add (mx_consumed s1) (N.of_nat k')) as [c|] eqn:U; [|discriminate].
    unfold u64_add in U. destruct (_ <=? u64_max)%N; [|discriminate]. injection U as <-.
    destruct (_ <=? mx_max s1)%N eqn:Y; [|discriminate]. injection X as <- <- <-.
    cbn [mx_inner] in id. cbn. rewrite id. lia. }
  intros H. destruct (G _ _ _ H) as (A & _); [cbn; lia|]. cbn in A.
  unfold max_set. split; intros T.
  - now replace (mx_consumed st <=? m)%N with false by lia.
  - replace (mx_consumed st <=? m)%N with true by lia. eexists. split; [reflexivity|]. split; auto.
    intros t' st'' C. apply G in C; [|cbn; lia]. cbn in C. lia.
Qed.
Print Assumptions C58_max_encoder.
Example C58_example : exists st,
  decode_calls (max_decoder ex_two) (max_new ex_two_new 3) 1 st /\ honest ex_two /\
  max_set st 0 = (st, Err InvalidInput) /\ snd (max_set st 1) = Ok tt /\
  exists st2, decode_calls (length_decoder ex_two) (length_new ex_two_new 2) 1 st2 /\
  snd (length_set_expected st2 7) = Err IncompleteDecoding.
Proof.
  eexists. split.
  { change 1 with (0 + size_of (Ok 1)). eapply dcs_call with (fuel := 9) (buf := [x01]) (e := Unknown);
      [constructor|reflexivity]. }
  split; [apply C16_budget_example|]. split; [reflexivity|]. split; [reflexivity|].
  eexists. split; [|shelve].
  change 1 with (0 + size_of (Ok 1)). eapply dcs_call with (fuel := 9) (buf := [x01]) (e := Unknown);
      [constructor|reflexivity].
  Unshelve. reflexivity.
Qed.
