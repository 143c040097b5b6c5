(** * C90: closures that panic *)
From Coq Require Import Lia ZifyBool ZifyNat ZifyN.
From Verif Require Import Panics DecComb.
Set Implicit Arguments.

(** ** Decoders *)

(** A panic in [map]'s closure loses the item it was called for, and nothing else: every other call, before and after,
    returns what it returns without the panic. *)
Theorem C90_map : forall S I T (D : Decoder S I) (f : I -> option T) s ops,
  dec_trace (map_pan D f) s ops = map or_panic (dec_trace (map_decoder D f) s ops).
Proof.
  intros S I T D f s ops. revert s. induction ops as [|o ops IH]; intros s; cbn [dec_trace map]; auto.
  destruct o as [fuel buf e| | |]; cbn.
  - destruct (dec_decode D fuel s buf e). cbn. now rewrite IH.
  - destruct (dec_finish D s) as [s' [i|k| |]]; cbn; rewrite IH; auto. destruct (f i); auto.
  - now rewrite IH.
  - now rewrite IH.
Qed.
Print Assumptions C90_map.

Theorem C90_try_map : forall S I T (D : Decoder S I) (f : I -> option (T + ErrorKind)) s ops,
  dec_trace (try_map_pan D f) s ops = map or_error (map or_panic (dec_trace (map_decoder D f) s ops)).
Proof.
  intros S I T D f s ops. revert s. induction ops as [|o ops IH]; intros s; cbn [dec_trace map]; auto.
  destruct o as [fuel buf e| | |]; cbn.
  - destruct (dec_decode D fuel s buf e). cbn. now rewrite IH.
  - destruct (dec_finish D s) as [s' [i|k| |]]; cbn; rewrite IH; auto. destruct (f i) as [[t|k]|]; auto.
  - now rewrite IH.
  - now rewrite IH.
Qed.
Print Assumptions C90_try_map.

Theorem C90_map_err : forall S I (D : Decoder S I) f s ops,
  dec_trace (map_err_pan D f) s ops = map (or_panic_err f) (dec_trace D s ops).
Proof.
  intros S I D f s ops. revert s. induction ops as [|o ops IH]; intros s; cbn [dec_trace map]; auto.
  destruct o as [fuel buf e| | |]; cbn.
  - destruct (dec_decode D fuel s buf e) as [s' r]. cbn. rewrite IH. destruct r; auto.
  - destruct (dec_finish D s) as [s' [i|k| |]]; cbn; rewrite IH; auto.
  - now rewrite IH.
  - now rewrite IH.
Qed.
Print Assumptions C90_map_err.

(** [and_then]: as long as the closure does not panic, nothing is different; when it does, the decoder is where it
    is between two items, with the first item taken out of the first decoder. *)
Theorem C90_and_then : forall S0 S1 I0 I1 (D0 : Decoder S0 I0) (D1 : Decoder S1 I1) (f : I0 -> option S1) g fuel st buf e st' r,
  (forall i s1, f i = Some s1 -> g i = s1) ->
  dec_decode (and_then_pan D0 D1 f) fuel st buf e = (st', r) ->
  dec_decode (and_then_decoder D0 D1 g) fuel st buf e = (st', r) \/
  r = Panic /\ at_inner1 st = None /\ at_inner1 st' = None /\
  exists s0 off i, try_decode D0 fuel (at_inner0 st) 0 buf e = TGo s0 off /\
    dec_finish D0 s0 = (at_inner0 st', Ok i) /\ f i = None.
Proof.
  intros S0 S1 I0 I1 D0 D1 f g fuel st buf e st' r G. cbn. unfold and_then_decode.
  destruct (at_inner1 st) as [s1|] eqn:A1; auto.
  destruct (try_decode D0 fuel (at_inner0 st) 0 buf e) as [s0 off|s0 x] eqn:T; auto.
  destruct (dec_finish D0 s0) as [s0' [i|k| |]] eqn:F; auto.
  destruct (f i) as [s1|] eqn:FI.
  - rewrite (G _ _ FI). auto.
  - intros [= <- <-]. right. cbn. eauto 10.
Qed.
Print Assumptions C90_and_then.

(** A head of one buffer, that the closure panics on: no byte is reported as consumed, and the decoder is ready for the
    head again: the caller that catches the panic can offer the same bytes again. *)
Theorem C90_and_then_retry : forall S0 S1 I0 I1 (D0 : Decoder S0 I0) (D1 : Decoder S1 I1) (f : I0 -> option S1) fmt P s0 w i fuel extra rest e,
  decodes D0 SD fmt P P -> P s0 -> fmt w i -> f i = None ->
  truthful SD (w ++ extra) rest e -> length (w ++ extra) < fuel ->
  exists s0', dec_decode (and_then_pan D0 D1 f) fuel (mkAndThen s0 None) (w ++ extra) e = (mkAndThen s0' None, Panic) /\ P s0'.
Proof.
  intros S0 S1 I0 I1 D0 D1 f fmt P s0 w i fuel extra rest e DEC HP W FI TR LT.
  destruct (DEC s0 w i HP W) as (R & SO & HR). cbn. unfold try_decode.
  destruct (dec_idle D0 s0) eqn:ID.
  - destruct (so_idle SO HR ID) as (_ & _ & s' & F & Q). rewrite F, FI. eauto.
  - unfold slice_from. cbn [Nat.leb skipn].
    destruct (so_last SO (extra := extra) (rest := rest) (e := e) (fuel := fuel) HR ID) as (s1 & DE & ID1 & R1); auto.
    { intros C; now destruct C. }
    rewrite DE. cbn in ID1. rewrite ID1. destruct (so_idle SO R1 ID1) as (_ & _ & s' & F & Q). rewrite F, FI. eauto.
Qed.
Print Assumptions C90_and_then_retry.

(** ** Encoders: the encoder has not seen the item *)
Theorem C90_map_from : forall S I T (E : Encoder S I) (f : T -> option I) s ops,
  enc_trace (map_from_pan E f) s ops = unseen E s (map (started f) ops).
Proof.
  intros S I T E f s ops. revert s. induction ops as [|o ops IH]; intros s; cbn [enc_trace map]; auto.
  destruct o as [fuel b e|fuel t| |]; cbn.
  - destruct (enc_encode E fuel s b e) as [[s' b'] r]. now rewrite IH.
  - destruct (f t) as [i|]; cbn; [destruct (enc_start E fuel s i)|]; now rewrite IH.
  - now rewrite IH.
  - now rewrite IH.
Qed.
Print Assumptions C90_map_from.

Theorem C90_try_map_from : forall S I T (E : Encoder S I) (f : T -> option (I + ErrorKind)) s ops,
  enc_trace (try_map_from_pan E f) s ops
  = unseen (try_map_from_encoder E (fun x => x)) s (map (started f) ops).
Proof.
  intros S I T E f s ops. revert s. induction ops as [|o ops IH]; intros s; cbn [enc_trace map]; auto.
  destruct o as [fuel b e|fuel t| |]; cbn.
  - destruct (enc_encode E fuel s b e) as [[s' b'] r]. now rewrite IH.
  - destruct (f t) as [[i|k]|]; cbn; [destruct (enc_start E fuel s i)| |]; now rewrite IH.
  - now rewrite IH.
  - now rewrite IH.
Qed.
Print Assumptions C90_try_map_from.

(** ** Collections *)

Lemma logged_try_pan : forall S I (D : Decoder S I) fuel st off buf e,
  match try_decode (logged D) fuel st off buf e with TGo s' _ => snd s' = snd st | TRet s' _ => snd s' = snd st end.
Proof.
  intros. unfold try_decode. cbn. destruct (dec_idle D (fst st)); auto. destruct (slice_from off buf); auto.
  destruct (dec_decode D fuel (fst st) l e) as [s' r]. destruct r; cbn; auto. destruct (dec_idle D s'); auto.
Qed.
Lemma extended_snoc : forall T I (ext : T -> I -> T * bool) l t i,
  extended ext t (l ++ [i]) =
  (fst (ext (fst (extended ext t l)) i), snd (extended ext t l) + if snd (ext (fst (extended ext t l)) i) then 0 else 1).
Proof.
  intros T I ext l. induction l as [|x l IH]; intros t i; cbn.
  - destruct (ext t i) as [t' []]; reflexivity.
  - destruct (ext t x) as [t' p]. rewrite IH. destruct (extended ext t' l) as [t'' n]. cbn.
    destruct p; f_equal; lia.
Qed.

Lemma into_pan_kept : forall S I T (D : Decoder S I) (dflt : T) ext n fuel st items off buf e st' r,
  items = fst (extended ext dflt (snd st)) ->
  into_pan_loop (logged D) ext n fuel st items off buf e = (st', r) ->
  ci_items st' = fst (extended ext dflt (snd (ci_inner st'))).
Proof.
  intros S I T D dflt ext. induction n as [|n IH]; intros fuel st items off buf e st' r E; cbn [into_pan_loop];
    destruct (off <? length buf); intros X; try (inversion X; subst; reflexivity).
  pose proof (logged_try_pan D fuel st off buf e) as L.
  destruct (try_decode (logged D) fuel st off buf e) as [s1 off'|s1 r1].
  2:{ inversion X; subst. cbn. now rewrite L. }
  cbn [dec_finish logged] in X. destruct (dec_finish D (fst s1)) as [s2 [i|k| |]];
    try (inversion X; subst; cbn; now rewrite L).
  destruct (ext items i) as [items' p] eqn:EX.
  assert (K : items' = fst (extended ext dflt (snd s1 ++ [i]))) by (rewrite extended_snoc, L, <- E, EX; reflexivity).
  destruct p.
  - inversion X; subst. reflexivity.
  - eapply IH; [|exact X]. cbn. exact K.
Qed.

(** Whatever panics there have been: each item that the decoder inside has given has been passed to [extend] exactly
    once, in their order. *)
Theorem C90_collect : forall S I T (D : Decoder S I) (dflt : T) ext s t st,
  decode_calls (into_pan (logged D) dflt ext) (into_new dflt (s, [])) t st ->
  ci_items st = fst (extended ext dflt (snd (ci_inner st))).
Proof.
  intros S I T D dflt ext s t st H. induction H as [|t s1 fuel buf e s2 r H IH X]; [reflexivity|].
  cbn [dec_decode into_pan] in X. destruct (ci_eos s1); [inversion X; subst; auto|].
  eapply into_pan_kept; [|exact X]. exact IH.
Qed.
Print Assumptions C90_collect.

Lemma ninto_pan_kept : forall S I T (D : Decoder S I) (dflt : T) ext rem fuel st items off buf e st' r,
  items = fst (extended ext dflt (snd st)) ->
  ninto_pan_loop (logged D) ext fuel rem st items off buf e = (st', r) ->
  ni_items st' = fst (extended ext dflt (snd (ni_inner st'))) /\
  ni_remaining st' + snd (extended ext dflt (snd (ni_inner st'))) = rem + snd (extended ext dflt (snd st)).
Proof.
  intros S I T D dflt ext. induction rem as [|rem IH]; intros fuel st items off buf e st' r E; cbn [ninto_pan_loop]; intros X.
  { inversion X; subst. auto. }
  destruct (off <? length buf); [|inversion X; subst; auto].
  pose proof (logged_try_pan D fuel st off buf e) as L.
  destruct (try_decode (logged D) fuel st off buf e) as [s1 off'|s1 r1].
  2:{ inversion X; subst. cbn. rewrite L. auto. }
  cbn [dec_finish logged] in X. destruct (dec_finish D (fst s1)) as [s2 [i|k| |]];
    try (inversion X; subst; cbn; rewrite L; now auto).
  destruct (ext items i) as [items' p] eqn:EX.
  pose proof (extended_snoc ext (snd s1) dflt i) as SN. rewrite L, <- E, EX in SN. cbn [fst snd] in SN.
  destruct p.
  - inversion X; subst. cbn [ni_items ni_inner ni_remaining snd]. rewrite L, SN. cbn. auto.
  - apply IH in X; cbn [snd] in *; rewrite ?L in *; [|now rewrite SN].
    destruct X as [A B]. split; auto. rewrite B, SN. cbn. lia.
Qed.

(** [collectn]: as above, and the calls of [extend] that returned are the ones that count. *)
Theorem C90_collectn : forall S I T (D : Decoder S I) (dflt : T) ext s n t st,
  decode_calls (ninto_pan (logged D) dflt ext) (ninto_new dflt (s, []) n) t st ->
  ni_items st = fst (extended ext dflt (snd (ni_inner st))) /\
  ni_remaining st + snd (extended ext dflt (snd (ni_inner st))) = n.
Proof.
  intros S I T D dflt ext s n t st H. induction H as [|t s1 fuel buf e s2 r H [IH1 IH2] X]; [cbn; auto|].
  cbn [dec_decode ninto_pan] in X. apply (@ninto_pan_kept _ _ _ D dflt ext) in X; auto. destruct X as [A B]. split; auto. lia.
Qed.
Print Assumptions C90_collectn.

(** ** [MonolithicDecoder] and [MonolithicEncoder] *)

(** A panic of [monolithic_decode] leaves the decoder as it was: all bytes given before are still there, none of this
    call's are taken. *)
Theorem C90_mono_decoder : forall I (f : list byte -> option ((I + ErrorKind) * nat)) (g : MonoDecode I) st buf e,
  (forall b x, f b = Some x -> g b = x) ->
  mono_decode_pan f st buf e = mono_decode g st buf e \/
  is_reached e = true /\ f (md_buf st ++ buf) = None /\ mono_decode_pan f st buf e = (st, Panic).
Proof.
  intros I f g st buf e G. unfold mono_decode_pan, mono_decode. destruct (is_reached e); auto.
  destruct (f (md_buf st ++ buf)) as [[[i|k] n]|] eqn:F; auto.
  - rewrite (G _ _ F). auto.
  - rewrite (G _ _ F). auto.
Qed.
Print Assumptions C90_mono_decoder.

(** A panic of [monolithic_encode] drops the item: the encoder is idle and takes the next one. *)
Theorem C90_mono_encoder : forall I (f : I -> list (list byte) * mono_end) st i fuel st1 buf e st2 b,
  enc_idle (mono_encoder (I := I) (fun _ => ([], None))) st = true ->
  enc_start (mono_encoder (fun _ => ([], None))) fuel st i = (st1, Ok tt) ->
  mono_encode_pan f st1 buf e = (st2, b, Panic) ->
  st2 = st /\ snd (f i) = EndPanic.
Proof.
  intros I f st i fuel st1 buf e st2 b ID. cbn in *. rewrite ID. intros [= <-]. unfold mono_encode_pan. cbn.
  destruct st as [it b0]. unfold mono_enc_idle in ID. cbn in *. destruct it; [discriminate|].
  destruct (f i) as [chunks last]. destruct last.
  - destruct (wc_b _); [discriminate|]. unfold bytes_start. destruct (bytes_enc_idle b0); [|discriminate]. discriminate.
  - discriminate.
  - intros [= <- <-]. auto.
Qed.
Print Assumptions C90_mono_encoder.

(** ** [repeat]: the iterator panics *)

Lemma pull_pan_spec : forall S I (E : Encoder S I) fuel,
  (forall s i, snd (enc_start E fuel s i) <> Panic) ->
  forall items s,
  match pull_pan E fuel s items with
  | PullGo s' rest => exists pre, items = pre ++ rest
  | PullDone s' => True
  | PullFail s' rest r => (exists pre, items = pre ++ rest) /\
      (r = Panic -> enc_idle E s' = true /\ exists pre, items = pre ++ None :: rest)
  end.
Proof.
  intros S I E fuel NP. induction items as [|x rest IH]; intros s; cbn [pull_pan].
  - destruct (enc_idle E s); auto. exists []; auto.
  - destruct (enc_idle E s) eqn:ID; [|exists []; auto]. destruct x as [i|].
    + pose proof (NP s i) as N. destruct (enc_start E fuel s i) as [s' y]. cbn in N. destruct y as [u|k| |].
      2-4: split; [exists [Some i]; auto|intros; try discriminate; now destruct N].
      specialize (IH s'). destruct (pull_pan E fuel s' rest) as [s1 r1|s1|s1 r1 z]; auto.
      * destruct IH as (pre & ->). exists (Some i :: pre); auto.
      * destruct IH as ((pre & A) & B). split; [exists (Some i :: pre); cbn; now f_equal|]. intros Z. destruct (B Z) as (C & pre' & ->).
        split; auto. exists (Some i :: pre'); auto.
    + split; [exists [None]; auto|]. intros _. split; auto. exists []; auto.
Qed.

(** When a call ends with the panic of [next], the encoder inside has nothing half written, the iterator has moved on
    past the element that panicked, and the repetition is still going on: the next call goes on behind it. *)
Theorem C90_repeat : forall S I (E : Encoder S I) fuel e,
  (forall s i, snd (enc_start E fuel s i) <> Panic) ->
  (forall s b, snd (enc_encode E fuel s b e) <> Panic) ->
  (forall s b s' b' n, enc_encode E fuel s b e = (s', b', Ok n) -> n <= length b /\ length b' = length b) ->
  forall n s l buf st' b' off,
  off <= length buf ->
  repeat_pan_loop E n fuel (mkRepeat s (Some l)) off buf e = (st', b', Panic) ->
  enc_idle E (rp_inner st') = true /\
  exists pre rest, l = pre ++ None :: rest /\ rp_items st' = Some rest.
Proof.
  intros S I E fuel e NS NE HON. induction n; intros s l buf st' b' off LE; [discriminate|]. cbn [repeat_pan_loop rp_items rp_inner].
  pose proof (@pull_pan_spec _ _ E fuel NS l s) as PS.
  destruct (pull_pan E fuel s l) as [s1 r1|s1|s1 r1 z].
  - destruct PS as (pre & ->). unfold slice_from. destruct (Nat.leb_spec off (length buf)); [|lia].
    pose proof (NE s1 (skipn off buf)) as N. pose proof (HON s1 (skipn off buf)) as HO.
    destruct (enc_encode E fuel s1 (skipn off buf) e) as [[s2 b2] x]. cbn in N.
    destruct x as [k|k| |]; try discriminate; [|now destruct N].
    destruct (HO _ _ _ eq_refl) as [HK HB]. rewrite skipn_length in HK, HB.
    destruct (k =? 0); [discriminate|]. intros H'. apply IHn in H'.
    + destruct H' as (A & pre' & rest & -> & C). split; auto. exists (pre ++ pre'), rest. now rewrite app_assoc.
    + rewrite app_length, firstn_length. lia.
  - discriminate.
  - intros [= <- <- ->]. destruct PS as (_ & B). destruct (B eq_refl) as (C & pre & ->). cbn. eauto.
Qed.
Print Assumptions C90_repeat.

(** ** No panics: the model of [Comb.v] and [Extend.v] *)
Lemma pull_pan_total : forall S I (E : Encoder S I) fuel l s,
  pull_pan E fuel s (map Some l)
  = match repeat_pull E fuel s l with
    | PullGo s' rest => PullGo s' (map Some rest)
    | PullDone s' => PullDone s'
    | PullFail s' rest r => PullFail s' (map Some rest) r
    end.
Proof.
  intros S I E fuel. induction l as [|i l IH]; intros s; cbn [map pull_pan repeat_pull]; destruct (enc_idle E s); auto.
  destruct (enc_start E fuel s i) as [s' [u|k| |]]; auto.
Qed.
Theorem C90_total : forall S I T (D : Decoder S I) (f : I -> T) (dflt : T) ext s n ops,
  dec_trace (map_pan D (fun i => Some (f i))) s ops = dec_trace (map_decoder D f) s ops /\
  dec_trace (into_pan D dflt (fun t i => (ext t i, false))) (into_new dflt s) ops = dec_trace (into_decoder D dflt ext) (into_new dflt s) ops /\
  dec_trace (ninto_pan D dflt (fun t i => (ext t i, false))) (ninto_new dflt s n) ops = dec_trace (ninto_decoder D dflt ext) (ninto_new dflt s n) ops.
Proof.
  intros. split; [|split]; try reflexivity. rewrite C90_map. revert s.
  induction ops as [|o ops IH]; intros s; cbn [dec_trace map]; auto.
  destruct o as [fuel buf e| | |]; cbn.
  - destruct (dec_decode D fuel s buf e). cbn. now rewrite IH.
  - destruct (dec_finish D s) as [s' [i|k| |]]; cbn; now rewrite IH.
  - now rewrite IH.
  - now rewrite IH.
Qed.
Print Assumptions C90_total.

(** ** What a panic does lose *)

(** A [collect] that has panicked has not said how many bytes it took: the caller that offers the buffer again gets
    the items before the panic twice. *)
Definition touchy (l : list (list byte)) (i : list byte) : list (list byte) * bool :=
  if Byte.eqb (hd x00 i) x09 && (length l =? 1) then (l, true) else (l ++ [i], false).
Theorem C90_collect_retry_refuted :
  let D := into_pan (copy_decoder vec_box) [] touchy in
  let buf := [x01; x09; x03] in
  exists s1 s2 s3, dec_decode D 9 (into_new [] (copy_dec_new [x00])) buf (eos_new true) = (s1, Panic) /\
    dec_decode D 9 s1 buf (eos_new true) = (s2, Ok 3) /\
    dec_finish D s2 = (s3, Ok [[x01]; [x01]; [x09]; [x03]]).
Proof. cbv zeta. do 3 eexists. split; [vm_compute; reflexivity|]. split; vm_compute; reflexivity. Qed.
Print Assumptions C90_collect_retry_refuted.

(** The head of an [and_then] that arrived in an earlier call is gone after the panic: the bytes of the body are taken
    for a head.  Here the closure refuses a length of 9. *)
Definition body_of (i : list byte) : option (CopyDec (list byte)) :=
  if Byte.eqb (hd x00 i) x09 then None else Some (copy_dec_new (repeat x00 (N.to_nat (Byte.to_N (hd x00 i))))).
Theorem C90_and_then_split_refuted :
  let D := and_then_pan (copy_decoder vec_box) (copy_decoder vec_box) body_of in
  exists s1 s2 s3 s4, dec_decode D 9 (mkAndThen (copy_dec_new [x00; x00]) None) [x09] (eos_new false) = (s1, Ok 1) /\
    dec_decode D 9 s1 [x00; x02] (eos_new false) = (s2, Panic) /\
    dec_decode D 9 s2 [x00; x02; x07; x07] (eos_new false) = (s3, Ok 2) /\ dec_finish D s3 = (s4, Ok []).
Proof. cbv zeta. do 4 eexists. split; [vm_compute; reflexivity|]. split; [vm_compute; reflexivity|]. split; vm_compute; reflexivity. Qed.
Print Assumptions C90_and_then_split_refuted.

(** [repeat]: the bytes of the items before the panic are in the buffer, but the call does not say so. *)
Theorem C90_repeat_bytes_refuted :
  exists st st', repeat_pan_loop (bytes_encoder vec_box) 9 9 (mkRepeat bytes_enc_new (Some [Some [x01]; None; Some [x03]])) 0 [x00; x00] (eos_new false)
    = (st, [x01; x00], Panic) /\
  repeat_pan_loop (bytes_encoder vec_box) 9 9 st 0 [x00; x00] (eos_new false)
    = (st', [x03; x00], Ok 1).
Proof. do 2 eexists. split; vm_compute; reflexivity. Qed.
Print Assumptions C90_repeat_bytes_refuted.

(** ** Examples *)

(** [U8Decoder.map(f)] with a closure that panics on 9. *)
Example C90_map_example :
  let f := fun i : list byte => if Byte.eqb (hd x00 i) x09 then None else Some (hd x00 i) in
  let one := [OpDecode 9 [x05] (eos_new false); OpFinish] in
  let two := [OpDecode 9 [x09] (eos_new false); OpFinish; OpIdle; OpDecode 9 [x07] (eos_new false); OpFinish] in
  dec_trace (map_pan (copy_decoder vec_box) f) (copy_dec_new [x00]) (one ++ two)
  = [ObDecode (Ok 1); ObFinish (Ok x05); ObDecode (Ok 1); ObFinish Panic; ObIdle false; ObDecode (Ok 1); ObFinish (Ok x07)].
Proof. vm_compute. reflexivity. Qed.

(** The encoder inside [map_from] can be used at once. *)
Example C90_map_from_example :
  let f := fun b : byte => if Byte.eqb b x09 then None else Some [b] in
  enc_trace (map_from_pan (bytes_encoder vec_box) f) bytes_enc_new
    [OpStart 9 x09; OpEIdle; OpStart 9 x05; OpEncode 9 [x00] (eos_new false)]
  = [ObStart Panic; ObEIdle true; ObStart (Ok tt); ObEncode [x05] (Ok 1)].
Proof. vm_compute. reflexivity. Qed.

(** An iterator that does not panic: the model of [Comb.v]. *)
Theorem C90_repeat_total : forall S I (E : Encoder S I) fuel e n s l off buf,
  repeat_pan_loop E n fuel (mkRepeat s (Some (map Some l))) off buf e
  = match repeat_loop E n fuel (mkRepeat s (Some l)) off buf e with
    | (st, b, r) => (mkRepeat (rp_inner st) (option_map (map Some) (rp_items st)), b, r)
    end.
Proof.
  intros S I E fuel e. induction n; intros s l off buf; cbn [repeat_pan_loop repeat_loop rp_items rp_inner]; auto.
  rewrite pull_pan_total. destruct (repeat_pull E fuel s l) as [s1 rest|s1|s1 rest x]; auto.
  destruct (slice_from off buf) as [b|]; auto.
  destruct (enc_encode E fuel s1 b e) as [[s2 b2] [k|k| |]]; auto.
  destruct (k =? 0); auto.
Qed.
Print Assumptions C90_repeat_total.
